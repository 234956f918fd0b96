(** Accuracy of the offset formulas. *)
From Coq Require Import ZArith Reals Bool List Lia Lra Psatz.
From Flocq Require Import Core BinarySingleNaN Mult_error Relative.
From Verif.Base Require Import Py Arr Sums F64.
From Verif.Model Require Import ShapesF FocalFitF.
From Verif.Spec Require Import BrightFSpec FocalFitFSpec.
From Verif.Proofs Require Import F64P FocalFitFS.
Local Open Scope R_scope.
Local Notation B := (bpow radix2).

Definition u : R := B (-53).
Lemma u_val : u = / 9007199254740992. Proof. unfold u. cbn. lra. Qed.
Lemma rnd_rel x : 0 <= x -> x = 0 \/ B (-1022) <= x -> exists e, Rabs e <= u /\ rnd64 x = x * (1 + e).
Proof.
  intros P [->|H]; [exists 0; rewrite Rabs_R0, rnd_0; split; [rewrite u_val; lra|ring]|].
  destruct (relative_error_N_FLT_ex radix2 (-1074) 53 ltac:(reflexivity) (fun z => negb (Z.even z)) x) as (e & E1 & E2).
  - rewrite Rabs_right by lra. exact H.
  - exists e. split; [|exact E2]. replace u with (/ 2 * B (- 53 + 1)); [exact E1|]. unfold u. cbn. lra.
Qed.
Lemma rnd_err x : 0 <= x -> x = 0 \/ B (-1022) <= x -> x * (1 - u) <= rnd64 x <= x * (1 + u).
Proof. intros P H. destruct (rnd_rel x P H) as (e & E & ->). apply Rabs_le_inv in E. split; apply Rmult_le_compat_l; lra. Qed.
Lemma rnd_scaled c k : (0 <= k)%Z -> fmt64 c -> rnd64 (B k * c) = B k * c.
Proof. intros H F. apply rnd_id. rewrite Rmult_comm. apply mult_bpow_pos_exact_FLT; auto. Qed.
(** The distance of a double above one from one. *)
Lemma above_one q : fmt64 q -> 1 <= q -> q - 1 = 0 \/ B (-52) <= q - 1.
Proof.
  intros F H. destruct (Rle_lt_or_eq_dec _ _ H) as [L|L]; [right|left; lra].
  assert (F1 : fmt64 1) by (apply (fmt_IZR 1); lia).
  pose proof (succ_le_lt radix2 (FLT_exp (-1074) 53) 1 q F1 F L) as S.
  rewrite (succ_eq_pos radix2 _ 1) in S by lra. 
  assert (U : ulp radix2 (FLT_exp (-1074) 53) 1 = B (-52)). { change 1 with (B 0). rewrite ulp_bpow. reflexivity. }
  rewrite U in S. lra.
Qed.

(** ** Linear formula *)
Lemma lin_near c1 q : fmt64 q -> B (-100) <= c1 <= B 100 -> 1 <= q -> Rabs (lin_G c1 q - (q - 1) / c1) <= 3 * u * ((q - 1) / c1).
Proof.
  intros Fq Hc Hq. unfold lin_G. pose proof (bpow_gt_0 radix2 (-100)) as P. pose proof u_val as U.
  assert (Pi : 0 < / c1) by (apply Rinv_0_lt_compat; lra).
  assert (Lo : B (-100) <= / c1). { change (B (-100)) with (/ B 100). apply Rinv_le_contravar; lra. }
  destruct (above_one q Fq Hq) as [E|E].
  - rewrite E, rnd_0. unfold Rdiv. rewrite !Rmult_0_l, rnd_0, Rminus_0_r, Rabs_R0. lra.
  - assert (E0 : B (-1022) <= q - 1) by (apply Rle_trans with (2 := E); apply bpow_le; lia).
    pose proof (rnd_err (q - 1) ltac:(lra) (or_intror E0)) as A. set (d := q - 1) in *. set (r := rnd64 d) in *.
    assert (H1 : d * / 2 <= r) by (pose proof (bpow_gt_0 radix2 (-52)); nra).
    assert (H2 : B (-153) <= r / c1).
    { unfold Rdiv. change (-153)%Z with ((-52 + -1) + -100)%Z. rewrite !bpow_plus. change (B (-1)) with (/ 2).
      apply Rmult_le_compat; [pose proof (bpow_gt_0 radix2 (-52)); lra|lra|lra|exact Lo]. }
    assert (H3 : B (-1022) <= r / c1) by (apply Rle_trans with (2 := H2); apply bpow_le; lia).
    pose proof (bpow_gt_0 radix2 (-153)). pose proof (rnd_err (r / c1) ltac:(lra) (or_intror H3)) as A2. set (w := rnd64 _) in *.
    unfold Rdiv in *. set (i := / c1) in *. pose proof (bpow_gt_0 radix2 (-52)).
    assert (Y : 0 < d * i) by (apply Rmult_lt_0_compat; lra).
    assert (R1 : d * i * (1 - u) <= r * i <= d * i * (1 + u)) by (split; nra).
    apply Rabs_le. set (y := d * i) in *. set (z := r * i) in *. rewrite U in *. split; nra.
Qed.

(** ** Quadratic formula *)
Definition root_at (c1 c2 q : R) : R := (- c1 + sqrt (c1 * c1 + 4 * c2 * (q - 1))) / (2 * c2).
Lemma sq_low c : B (-100) <= c <= B 100 -> B (-1022) <= c * c.
Proof.
  intros H. apply Rle_trans with (B (-100) * B (-100)); [rewrite <- bpow_plus; apply bpow_le; lia|].
  pose proof (bpow_gt_0 radix2 (-100)). apply Rmult_le_compat; lra.
Qed.
Lemma disc_near c1 c2 q : fmt64 q -> fmt64 c2 -> B (-100) <= c1 <= B 100 -> B (-100) <= c2 <= B 100 -> 1 <= q ->
  let D := c1 * c1 + 4 * c2 * (q - 1) in 0 < D /\ D * (1 - 4 * u) <= quad_disc c1 c2 q <= D * (1 + 4 * u).
Proof.
  intros Fq F2 H1 H2 Hq D. pose proof (bpow_gt_0 radix2 (-100)) as P. pose proof u_val as U.
  pose proof (sq_low c1 H1) as Sq. pose proof (bpow_gt_0 radix2 (-1022)) as P'. unfold quad_disc.
  pose proof (rnd_err (c1 * c1) ltac:(lra) (or_intror Sq)) as A1. set (a := rnd64 (c1 * c1)) in *.
  replace (rnd64 (4 * c2)) with (4 * c2) by (symmetry; apply (rnd_scaled c2 2); [lia|auto]).
  assert (N : rnd64 (4 * c2 * rnd64 (1 - q)) = - rnd64 (4 * c2 * rnd64 (q - 1))).
  { replace (1 - q) with (- (q - 1)) by ring. rewrite rnd_opp. transitivity (rnd64 (- (4 * c2 * rnd64 (q - 1)))); [f_equal; ring|apply rnd_opp]. }
  rewrite N. set (b := rnd64 (4 * c2 * rnd64 (q - 1))) in *. replace (a - - b) with (a + b) by ring.
  assert (A2 : 4 * c2 * (q - 1) * (1 - u) * (1 - u) <= b <= 4 * c2 * (q - 1) * (1 + u) * (1 + u)).
  { unfold b. destruct (above_one q Fq Hq) as [E|E]; [rewrite E, rnd_0, !Rmult_0_r, rnd_0; lra|].
    assert (E0 : B (-1022) <= q - 1) by (apply Rle_trans with (2 := E); apply bpow_le; lia).
    pose proof (rnd_err (q - 1) ltac:(lra) (or_intror E0)) as A. set (d := q - 1) in *. set (r := rnd64 d) in *.
    pose proof (bpow_gt_0 radix2 (-52)).
    assert (Hr : d * / 2 <= r) by nra.
    assert (L : B (-1022) <= 4 * c2 * r).
    { apply Rle_trans with (B (-100) * B (-53)); [rewrite <- bpow_plus; apply bpow_le; lia|].
      change (-53)%Z with (-52 + -1)%Z. rewrite bpow_plus. change (B (-1)) with (/ 2).
      apply Rmult_le_compat; nra. }
    pose proof (rnd_err (4 * c2 * r) ltac:(lra) (or_intror L)) as A3. set (w := rnd64 _) in *. set (k := 4 * c2) in *.
    assert (Pk : 0 < k) by (unfold k; lra). assert (Pd : 0 < d) by lra.
    assert (R1 : k * d * (1 - u) <= k * r <= k * d * (1 + u)) by (split; nra).
    set (y := k * d) in *. set (z := k * r) in *. assert (0 < 1 - u) by lra. assert (0 < 1 + u) by lra. split; nra. }
  assert (Pb : 0 <= 4 * c2 * (q - 1)) by (apply Rmult_le_pos; lra). set (k := 4 * c2 * (q - 1)) in *. set (s := c1 * c1) in *.
  assert (PD : 0 < D) by (unfold D; lra). split; [exact PD|].
  assert (L : B (-1022) <= a + b).
  { unfold a. apply Rle_trans with (rnd64 (B (-1022))); [rewrite rnd_id; [lra|apply FocalFitFR.fmt_pow; lia]|].
    apply Rle_trans with a; [apply rnd_mono; exact Sq|]. assert (K0 : 0 <= k * (1 - u) * (1 - u)) by (apply Rmult_le_pos; [apply Rmult_le_pos; [exact Pb|]|]; clear - U; lra). pose proof (Rle_trans _ _ _ K0 (proj1 A2)) as Hb0. clear - Hb0. change (a <= a + b). lra. }
  pose proof (rnd_err (a + b) ltac:(lra) (or_intror L)) as A3. set (w := rnd64 _) in *.
  assert (R1 : D * (1 - 2 * u) <= a + b <= D * (1 + 2 * u + u * u)).
  { unfold D. split; nra. }
  set (t := a + b) in *. rewrite U in *. split; nra.
Qed.
Lemma sqrt_near D d e : 0 < D -> 0 <= e <= 1 -> D * (1 - e) <= d <= D * (1 + e) -> sqrt D * (1 - e) <= sqrt d <= sqrt D * (1 + e).
Proof.
  intros P E H. assert (S : 0 < sqrt D) by (apply sqrt_lt_R0; auto). assert (Q : sqrt D * sqrt D = D) by (apply sqrt_sqrt; lra).
  split.
  - apply Rsqr_incr_0_var; [|apply sqrt_pos]. unfold Rsqr. rewrite sqrt_sqrt by nra. nra.
  - apply Rsqr_incr_0_var; [|apply Rmult_le_pos; lra]. unfold Rsqr. rewrite sqrt_sqrt by nra. nra.
Qed.
Lemma quad_near c1 c2 q : fmt64 q -> fmt64 c1 -> fmt64 c2 -> B (-100) <= c1 <= B 100 -> B (-100) <= c2 <= B 100 -> 1 <= q ->
  Rabs (quad_G c1 c2 q - root_at c1 c2 q) <= 9 * u * (sqrt (c1 * c1 + 4 * c2 * (q - 1)) / (2 * c2)).
Proof.
  intros Fq F1 F2 H1 H2 Hq. pose proof (disc_near c1 c2 q Fq F2 H1 H2 Hq) as A. cbv zeta in A. destruct A as [PD A].
  pose proof (bpow_gt_0 radix2 (-100)) as P. pose proof u_val as U.
  assert (G0 : 0 <= quad_G c1 c2 q) by (apply (quad_good c1 c2 F1 H1 (proj1 H2)); auto).
  assert (Rt : c1 <= rnd64 (sqrt (quad_disc c1 c2 q))).
  { apply Rle_trans with (1 := root_of_square c1 F1 H1). apply rnd_mono, sqrt_le_1_alt, disc_one; lra. }
  unfold quad_G, root_at in *.
  set (D := c1 * c1 + 4 * c2 * (q - 1)) in *. set (d := quad_disc c1 c2 q) in *.
  pose proof (sqrt_near D d (4 * u) PD ltac:(rewrite U; lra) A) as A2. set (S := sqrt D) in *. set (s := sqrt d) in *.
  assert (S1 : c1 <= S). { unfold S. rewrite <- (sqrt_square c1) by lra. apply sqrt_le_1_alt. unfold D. assert (0 <= 4 * c2 * (q - 1)) by (apply Rmult_le_pos; lra). lra. }
  assert (Ls : B (-1022) <= s).
  { apply Rle_trans with (B (-101)); [apply bpow_le; lia|]. apply Rle_trans with (S * (1 - 4 * u)); [|lra].
    change (-101)%Z with (-100 + -1)%Z. rewrite bpow_plus. change (B (-1)) with (/ 2). rewrite U. nra. }
  pose proof (bpow_gt_0 radix2 (-1022)) as P'. pose proof (rnd_err s ltac:(lra) (or_intror Ls)) as A3. set (rs := rnd64 s) in *.
  assert (A4 : S * (1 - 6 * u) <= rs <= S * (1 + 6 * u)) by (rewrite U in *; split; nra).
  set (n := - c1 + rs) in *. assert (N0 : 0 <= n <= S * (1 + 6 * u)) by (unfold n; split; lra).
  pose proof (ShapesFA.rnd_err_rel n) as An. change (B (-53)) with u in An. rewrite (Rabs_right n) in An by lra. apply Rabs_le_inv in An.
  replace (rnd64 (2 * c2)) with (2 * c2) by (symmetry; apply (rnd_scaled c2 1); [lia|auto]).
  set (rn := rnd64 n) in *. assert (Rn : 0 <= rn) by (apply rnd_nonneg; apply N0).
  unfold Rdiv. set (i := / (2 * c2)) in *.
  assert (Pi : B (-101) <= i).
  { unfold i. change (B (-101)) with (/ B 101). apply Rinv_le_contravar; [lra|]. change 101%Z with (1 + 100)%Z. rewrite bpow_plus. change (B 1) with 2. lra. }
  pose proof (ShapesFA.rnd_err_rel (rn * i)) as Ay. change (B (-53)) with u in Ay. pose proof (bpow_gt_0 radix2 (-101)) as P101.
  assert (Y0 : 0 <= rn * i) by (apply Rmult_le_pos; lra). rewrite (Rabs_right (rn * i)) in Ay by lra. apply Rabs_le_inv in Ay.
  set (y := rn * i) in *. set (w := rnd64 y) in *. set (eta := B (-1075)) in *.
  assert (E1 : eta <= u * u * S).
  { unfold eta. apply Rle_trans with (B (-53) * B (-53) * B (-100)); [rewrite <- !bpow_plus; apply bpow_le; lia|].
    fold u. apply Rmult_le_compat_l; [rewrite U; lra|lra]. }
  assert (E2 : eta <= u * u * (S * i)).
  { unfold eta. apply Rle_trans with (B (-53) * B (-53) * (B (-100) * B (-101))); [rewrite <- !bpow_plus; apply bpow_le; lia|].
    fold u. apply Rmult_le_compat_l; [rewrite U; lra|]. apply Rmult_le_compat; lra. }
  assert (Hn : S - c1 - 6 * u * S <= n <= S - c1 + 6 * u * S) by (unfold n; lra).
  clearbody n rn w eta s rs S d. 
  assert (Hr : S - c1 - 8 * u * S + / 2 * u * S <= rn <= S - c1 + 8 * u * S - / 2 * u * S).
  { clear - An N0 E1 Hn U P H1 S1. assert (PS : 0 < S) by lra. rewrite U in *. lra. }
  set (z := S * i) in *. assert (Hy : (- c1 + S) * i - (8 * u - / 2 * u) * z <= y <= (- c1 + S) * i + (8 * u - / 2 * u) * z).
  { unfold y, z. split; nra. }
  assert (Hz : (- c1 + S) * i <= z) by (unfold z; nra). set (t := (- c1 + S) * i) in *. assert (Pz : 0 < z) by (unfold z; apply Rmult_lt_0_compat; lra).
  apply Rabs_le. clearbody z y t. clear - Ay Hy Hz E2 U Pz. rewrite U in *. lra.
Qed.

(** ** Both formulas, with the ratio folded above one *)
Lemma low_one x : 1 <= x -> B (-1022) <= x.
Proof. intros H. apply Rle_trans with (B 0); [apply bpow_le; lia|exact H]. Qed.
Lemma recip_near p : 1 <= p -> p * (1 - u) <= rnd64 p <= p * (1 + u).
Proof. intros H. apply rnd_err; [lra|right; apply low_one, H]. Qed.
Lemma fmt_rnd x : fmt64 (rnd64 x).
Proof. apply generic_format_round; auto with typeclass_instances. Qed.
Lemma u_pow k : B (-53 + k) = u * B k. Proof. apply bpow_plus. Qed.
Lemma linear_accuracy c1 r x : ordinary c1 -> positive_ratio r -> calibrated (fval c1) 0 (fval r) x ->
  exists v, offset_linear_f c1 r = Ok v /\ near v x (B (-50) * (Rabs x + / fval c1)).
Proof.
  intros Hc Hr Cal. destruct (linear_estimator c1 Hc) as [_ K]. destruct (K r Hr) as (v & E & W & V). exists v. split; [exact E|].
  split; [apply W|]. rewrite V. clear K E W V v. destruct Hc as [_ Hc]. set (c := fval c1) in *. pose proof (bpow_gt_0 radix2 (-100)) as P. pose proof u_val as U.
  change (-50)%Z with (-53 + 3)%Z. rewrite u_pow. change (B 3) with 8. assert (Pi : 0 < / c) by (apply Rinv_0_lt_compat; lra).
  unfold fold_at. destruct Cal as [(X & Er)|(X & Er)].
  - assert (R1 : 1 <= fval r) by (rewrite Er; assert (0 <= c * x) by (apply Rmult_le_pos; lra); nra). rewrite Rlt_bool_false by exact R1.
    pose proof (lin_near c (fval r) (fval_format r) Hc R1) as N. replace ((fval r - 1) / c) with x in N by (rewrite Er; field; lra).
    rewrite (Rabs_right x) by lra. apply Rle_trans with (1 := N). rewrite U. nra.
  - set (y := - x) in *. set (p := 1 / fval r) in *. assert (Py : 0 < y) by (unfold y; lra). assert (P1 : p = 1 + c * y) by (rewrite Er; unfold y; ring).
    assert (Pp : 1 < p) by (rewrite P1; assert (0 < c * y) by (apply Rmult_lt_0_compat; lra); lra).
    destruct Hr as [_ Hr]. pose proof (bpow_gt_0 radix2 (-460)).
    assert (Rr : fval r < 1).
    { apply Rnot_le_lt. intros L. assert (p <= 1); [|lra]. unfold p, Rdiv. rewrite Rmult_1_l, <- Rinv_1. apply Rinv_le_contravar; lra. }
    rewrite Rlt_bool_true by exact Rr. fold p. pose proof (recip_near p ltac:(lra)) as A. set (q := rnd64 p) in *.
    assert (Q1 : 1 <= q) by (apply (inv_ge_one (fval r)); lra).
    pose proof (lin_near c q (fmt_rnd _) Hc Q1) as N. set (g := lin_G c q) in *. apply Rabs_le_inv in N.
    rewrite (Rabs_left x) by exact X. fold y. replace (- g - x) with (- (g - y)) by (unfold y; ring). rewrite Rabs_Ropp. apply Rabs_le.
    assert (Z : (q - 1) / c = y + (q - p) * / c) by (rewrite P1; field; lra).
    assert (Z2 : - (u * (/ c + y)) <= (q - p) * / c <= u * (/ c + y)).
    { replace (u * (/ c + y)) with ((u * p) * / c) by (rewrite P1; field; lra).
      replace (- (u * p * / c)) with ((- (u * p)) * / c) by ring. split; apply Rmult_le_compat_r; lra. }
    rewrite Z in N. set (k := (q - p) * / c) in *. set (h := / c) in *. clearbody k h g y. clear - N Z2 U Py Pi. rewrite U in *. lra.
Qed.
Lemma root_calibrated c1 c2 x : 0 < c1 -> 0 < c2 -> 0 <= x -> sqrt (c1 * c1 + 4 * c2 * (c1 * x + c2 * x ^ 2)) = c1 + 2 * c2 * x.
Proof.
  intros H1 H2 X. replace (c1 * c1 + 4 * c2 * (c1 * x + c2 * x ^ 2)) with ((c1 + 2 * c2 * x) * (c1 + 2 * c2 * x)) by ring. apply sqrt_square.
  assert (0 <= c2 * x) by (apply Rmult_le_pos; lra). lra.
Qed.
Lemma quadratic_accuracy c1 c2 r x : ordinary c1 -> ordinary c2 -> positive_ratio r -> calibrated (fval c1) (fval c2) (fval r) x ->
  exists v, offset_quadratic_f c1 c2 r = Ok v /\ near v x (B (-49) * (Rabs x + / fval c1 + fval c1 / fval c2)).
Proof.
  intros Hc Hd Hr Cal. destruct (quad_estimator c1 c2 Hc Hd) as [_ K]. destruct (K r Hr) as (v & E & W & V). exists v. split; [exact E|].
  split; [apply W|]. rewrite V. clear K E W V v. destruct Hc as [_ Hc], Hd as [_ Hd]. pose proof (fval_format c1) as Fc. pose proof (fval_format c2) as Fd.
  set (c := fval c1) in *. set (d := fval c2) in *. pose proof (bpow_gt_0 radix2 (-100)) as P. pose proof u_val as U.
  change (-49)%Z with (-53 + 4)%Z. rewrite u_pow. change (B 4) with 16. assert (Pi : 0 < / c) by (apply Rinv_0_lt_compat; lra).
  assert (Pj : 0 < c / d) by (apply Rdiv_lt_0_compat; lra).
  unfold fold_at. destruct Cal as [(X & Er)|(X & Er)].
  - assert (C0 : 0 <= c * x) by (apply Rmult_le_pos; lra). assert (D0 : 0 <= d * x ^ 2) by (apply Rmult_le_pos; [lra|nra]).
    assert (R1 : 1 <= fval r) by lra. rewrite Rlt_bool_false by exact R1.
    pose proof (quad_near c d (fval r) (fval_format r) Fc Fd Hc Hd R1) as N. unfold root_at in N.
    replace (fval r - 1) with (c * x + d * x ^ 2) in N by (rewrite Er; ring). rewrite root_calibrated in N by lra.
    replace ((- c + (c + 2 * d * x)) / (2 * d)) with x in N by (field; lra). replace ((c + 2 * d * x) / (2 * d)) with (c / d / 2 + x) in N by (field; lra).
    rewrite (Rabs_right x) by lra. apply Rle_trans with (1 := N). rewrite U. lra.
  - set (y := - x) in *. set (p := 1 / fval r) in *. assert (Py : 0 < y) by (unfold y; lra). assert (P1 : p = 1 + c * y + d * y ^ 2) by (rewrite Er; unfold y; ring).
    assert (C0 : 0 < c * y) by (apply Rmult_lt_0_compat; lra). assert (D0 : 0 < d * y) by (apply Rmult_lt_0_compat; lra). assert (D1 : 0 < d * y ^ 2) by (apply Rmult_lt_0_compat; [lra|nra]).
    assert (Pp : 1 < p) by lra. destruct Hr as [_ Hr]. pose proof (bpow_gt_0 radix2 (-460)).
    assert (Rr : fval r < 1).
    { apply Rnot_le_lt. intros L. assert (p <= 1); [|lra]. unfold p, Rdiv. rewrite Rmult_1_l, <- Rinv_1. apply Rinv_le_contravar; lra. }
    rewrite Rlt_bool_true by exact Rr. fold p. pose proof (recip_near p ltac:(lra)) as A. set (q := rnd64 p) in *.
    assert (Q1 : 1 <= q) by (apply (inv_ge_one (fval r)); lra).
    pose proof (quad_near c d q (fmt_rnd _) Fc Fd Hc Hd Q1) as N. set (g := quad_G c d q) in *. unfold root_at in N. apply Rabs_le_inv in N.
    rewrite (Rabs_left x) by exact X. fold y. replace (- g - x) with (- (g - y)) by (unfold y; ring). rewrite Rabs_Ropp. apply Rabs_le.
    pose proof (root_calibrated c d y ltac:(lra) ltac:(lra) ltac:(lra)) as Sp. set (T := c + 2 * d * y) in *. assert (PT : 0 < T) by (unfold T; lra).
    set (S := sqrt (c * c + 4 * d * (q - 1))) in *. assert (PS : 0 <= S) by apply sqrt_pos.
    assert (Q : S * S - T * T = 4 * d * (q - p)).
    { unfold S. rewrite sqrt_sqrt by (assert (0 <= d * (q - 1)) by (apply Rmult_le_pos; lra); nra). rewrite P1. unfold T. ring. }
    (* S - T = 4 d (q - p) / (S + T) *)
    assert (Z : (S - T) / (2 * d) = 2 * (q - p) / (S + T)). { apply Rmult_eq_reg_r with (2 * d * (S + T)); [|nra]. field_simplify; [|lra|lra]. nra. }
    assert (Pu : 0 < u) by (rewrite U; lra).
    assert (Tp : p / T <= / c + y).
    { apply Rmult_le_reg_r with T; [exact PT|]. unfold Rdiv. rewrite Rmult_assoc, Rinv_l, Rmult_1_r by lra. rewrite P1. unfold T.
      assert (1 <= / c * (c + 2 * d * y)) by (rewrite Rmult_plus_distr_l, Rinv_l by lra; assert (0 < / c * (2 * d * y)) by (apply Rmult_lt_0_compat; lra); lra). nra. }
    assert (Z2 : - (2 * u * (/ c + y)) <= (S - T) / (2 * d) <= 2 * u * (/ c + y)).
    { rewrite Z. assert (Ip : 0 < / (S + T)) by (apply Rinv_0_lt_compat; lra). assert (Iq : / (S + T) <= / T) by (apply Rinv_le_contravar; lra).
      assert (M : 2 * u * p * / (S + T) <= 2 * u * (/ c + y)).
      { apply Rle_trans with (2 * u * (p / T)); [unfold Rdiv; rewrite <- (Rmult_assoc (2 * u)); apply Rmult_le_compat_l; [apply Rmult_le_pos; lra|exact Iq]|].
        apply Rmult_le_compat_l; lra. }
      unfold Rdiv. split.
      - apply Rle_trans with (- (2 * u * p * / (S + T))); [lra|]. replace (- (2 * u * p * / (S + T))) with (- (2 * u * p) * / (S + T)) by ring.
        apply Rmult_le_compat_r; lra.
      - apply Rle_trans with (2 := M). apply Rmult_le_compat_r; lra. }
    assert (Ey : (- c + S) / (2 * d) = y + (S - T) / (2 * d)) by (unfold T; field; lra).
    assert (Es : S / (2 * d) = y + c / d / 2 + (S - T) / (2 * d)) by (unfold T; field; lra).
    rewrite Ey, Es in N. set (k := (S - T) / (2 * d)) in *. set (h := / c) in *. set (j := c / d) in *.
    clearbody k h j g y. clear - N Z2 U Py Pi Pj. rewrite U in *. lra.
Qed.
