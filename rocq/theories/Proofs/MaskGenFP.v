(** Proofs about the binary64 sampling computation of gen_hlc_occulter. *)
From Coq Require Import ZArith Bool String Reals Lia Lra Psatz.
From Flocq Require Import Core BinarySingleNaN Relative.
From Verif.Base Require Import Py F64.
From Verif.Model Require Import Math MaskGenF.
From Verif.Spec Require Import MaskGenFSpec.
From Verif.Proofs Require Import MathP F64P.
Open Scope Z_scope.

Lemma ffloor_spec x : fval (ffloor x) = IZR (Zfloor (fval x)) /\ is_finite (ffloor x) = is_finite x.
Proof.
  destruct (Bnearbyint_correct prec emax Hmax mode_DN x) as (A & B & _). split; [|exact B].
  rewrite round_FIX0 in A. exact A.
Qed.
Lemma flt_spec (x y : f64) : is_finite x = true -> is_finite y = true -> flt x y = true <-> (fval x < fval y)%R.
Proof.
  intros Hx Hy. unfold flt. rewrite (Bltb_correct prec emax x y Hx Hy).
  destruct (Rlt_bool_spec (B2R x) (B2R y)); split; auto; try discriminate. unfold fval. lra.
Qed.
Lemma feq_spec (x y : f64) : is_finite x = true -> is_finite y = true -> feq x y = true <-> (fval x = fval y)%R.
Proof.
  intros Hx Hy. unfold feq. rewrite (Beqb_correct prec emax x y Hx Hy).
  destruct (Req_bool_spec (B2R x) (B2R y)); split; auto; try discriminate.
Qed.
Local Notation B := (bpow radix2).
Local Open Scope R_scope.
Local Notation u := (B (-53)).

Lemma u_small : 0 < u <= / 8.
Proof. split; [apply bpow_gt_0|]. apply Rle_trans with (B (-3)); [apply bpow_le; lia|]. cbn. lra. Qed.
(** Relative error of one rounding away from underflow. *)
Lemma rnd_rel x : B (-1000) <= x -> exists e, Rabs e <= u /\ rnd64 x = x * (1 + e).
Proof.
  intros H. destruct (relative_error_N_FLT_ex radix2 (-1074) 53 ltac:(reflexivity) (fun z => negb (Z.even z)) x) as (e & E1 & E2).
  - rewrite Rabs_right.
    + eapply Rle_trans; [|exact H]. apply bpow_le. lia.
    + apply Rle_ge. eapply Rle_trans; [|exact H]. apply bpow_ge_0.
  - exists e. split; [|exact E2]. eapply Rle_trans; [exact E1|]. right.
    replace (- (53) + 1)%Z with (-53 + 1)%Z by lia. rewrite bpow_plus. change (B 1) with 2. lra.
Qed.
Lemma rel_bounds x e : 0 <= x -> Rabs e <= u -> x / 2 <= x * (1 + e) <= 2 * x.
Proof. intros Hx He. pose proof u_small. apply Rabs_le_inv in He. nra. Qed.
Lemma rnd_near x k : B (-1000) <= x -> x <= B k -> (k < 1000)%Z ->
  x / 2 <= rnd64 x <= 2 * x /\ Rabs (rnd64 x) < B 1024.
Proof.
  intros H1 H2 Hk. destruct (rnd_rel x H1) as (e & E1 & E2).
  assert (P : 0 <= x) by (eapply Rle_trans; [apply bpow_ge_0|exact H1]).
  pose proof (rel_bounds x e P E1) as R1. rewrite E2. split; auto.
  rewrite Rabs_right by lra. eapply Rle_lt_trans; [apply R1|]. apply Rle_lt_trans with (B (k + 1)).
  - rewrite bpow_plus. change (B 1) with 2. lra.
  - apply bpow_lt. lia.
Qed.
Lemma div_range x y a b c d : B a <= x <= B b -> B c <= y <= B d -> B (a - d) <= x / y <= B (b - c).
Proof.
  intros [X1 X2] [Y1 Y2]. pose proof (bpow_gt_0 radix2 a). pose proof (bpow_gt_0 radix2 c). pose proof (bpow_gt_0 radix2 d).
  unfold Zminus. rewrite !bpow_plus, !bpow_opp. unfold Rdiv. split.
  - apply Rmult_le_compat; try lra; [apply Rlt_le, Rinv_0_lt_compat; auto|]. apply Rinv_le_contravar; lra.
  - apply Rmult_le_compat; try lra; [apply Rlt_le, Rinv_0_lt_compat; lra|]. apply Rinv_le_contravar; lra.
Qed.
Lemma mul_range x y a b c d : B a <= x <= B b -> B c <= y <= B d -> B (a + c) <= x * y <= B (b + d).
Proof.
  intros [X1 X2] [Y1 Y2]. pose proof (bpow_gt_0 radix2 a). pose proof (bpow_gt_0 radix2 c).
  rewrite !bpow_plus. split; apply Rmult_le_compat; lra.
Qed.
Lemma half_range x y a b : B a <= x <= B b -> x / 2 <= y <= 2 * x -> B (a - 1) <= y <= B (b + 1).
Proof.
  intros [X1 X2] [Y1 Y2]. unfold Zminus. rewrite !bpow_plus. change (B 1) with 2. change (B (- (1))) with (/ 2). lra.
Qed.
Lemma int_range z k : (1 <= z <= 2 ^ k)%Z -> (0 <= k)%Z -> B 0 <= IZR z <= B k.
Proof.
  intros [H1 H2] Hk. split; [cbn; apply (IZR_le 1); auto|]. rewrite <- IZR_Zpower by auto. apply IZR_le. exact H2.
Qed.

Lemma magnification_f_ok (a b : f64) N : is_finite a = true -> is_finite b = true ->
  B (-100) <= fval a <= B 100 -> B (-100) <= fval b <= B 100 -> (1 <= N <= 2 ^ 50)%Z ->
  2 <= fval a / fval b * IZR N <= B 50 ->
  (exists m, magnification_f a b N = Ok m /\ 0 < fval m <= 1) \/
  (magnification_f a b N = Err TypeError /\
   exists M, (1 <= M)%Z /\ Rabs (fval a / fval b * IZR N - IZR M) <= B (-52) * IZR M).
Proof.
  intros Fa Fb Ra Rb HN Ht. pose proof u_small as U.
  assert (Pa : 0 < fval a) by (eapply Rlt_le_trans; [apply bpow_gt_0|apply Ra]).
  assert (Pb : 0 < fval b) by (eapply Rlt_le_trans; [apply bpow_gt_0|apply Rb]).
  pose proof (int_range N 50 HN ltac:(lia)) as RN.
  assert (PN : 0 < IZR N) by (apply IZR_lt; lia).
  destruct (fofZ_spec N ltac:(lia)) as [VN FN].
  set (t := fval a / fval b * IZR N) in *.
  (* a / b *)
  pose proof (div_range _ _ _ _ _ _ Ra Rb) as Rq.
  destruct (rnd_near (fval a / fval b) 200) as [N1 O1]; [eapply Rle_trans; [|apply Rq]; apply bpow_le; lia|eapply Rle_trans; [apply Rq|]; apply bpow_le; lia|lia|].
  destruct (rnd_rel (fval a / fval b)) as (e1 & E1 & Q1); [eapply Rle_trans; [|apply Rq]; apply bpow_le; lia|].
  destruct (fdiv_spec a b Fa) as [V1 F1]; [lra|exact O1|].
  pose proof (half_range _ _ _ _ Rq N1) as R1.
  (* times N *)
  pose proof (mul_range _ _ _ _ _ _ R1 RN) as R1N.
  destruct (rnd_near (rnd64 (fval a / fval b) * IZR N) 251) as [N2 O2];
    [eapply Rle_trans; [|apply R1N]; apply bpow_le; lia|eapply Rle_trans; [apply R1N|]; apply bpow_le; lia|lia|].
  destruct (rnd_rel (rnd64 (fval a / fval b) * IZR N)) as (e2 & E2 & Q2); [eapply Rle_trans; [|apply R1N]; apply bpow_le; lia|].
  destruct (fmul_spec (fdiv a b) (fofZ N) F1 FN) as [V2 F2]; [rewrite V1, VN; exact O2|].
  rewrite V1, VN in V2. set (q := rnd64 (rnd64 (fval a / fval b) * IZR N)) in *.
  assert (Eq : q = t * (1 + e1) * (1 + e2)) by (rewrite Q2, Q1; unfold t; ring).
  apply Rabs_le_inv in E1, E2.
  assert (Bq : 1 <= q <= B 51).
  { change (B 51) with (2 * B 50) in *. rewrite Eq. assert (3 / 4 <= (1 + e1) * (1 + e2) <= 4 / 3) by nra. nra. }
  destruct (ffloor_spec (fmul (fdiv a b) (fofZ N))) as [V3 F3].
  set (M := Zfloor q) in *.
  assert (M1 : (1 <= M)%Z) by (apply Zfloor_lub; apply Bq).
  assert (Mq : IZR M <= q) by apply Zfloor_lb.
  assert (M2 : (M <= 2 ^ 51)%Z) by (apply le_IZR; change (IZR (2 ^ 51)) with (IZR (radix2 ^ 51)); rewrite IZR_Zpower by lia; lra).
  pose proof (int_range M 51 (conj M1 M2) ltac:(lia)) as RM.
  assert (PM : 0 < IZR M) by (apply IZR_lt; lia).
  destruct (fofZ_spec M ltac:(lia)) as [VM FM].
  (* M / N *)
  pose proof (div_range _ _ _ _ _ _ RM RN) as R3.
  destruct (rnd_near (IZR M / IZR N) 51) as [N3 O3];
    [eapply Rle_trans; [|apply R3]; apply bpow_le; lia|eapply Rle_trans; [apply R3|]; apply bpow_le; lia|lia|].
  destruct (rnd_rel (IZR M / IZR N)) as (e3 & E3 & Q3); [eapply Rle_trans; [|apply R3]; apply bpow_le; lia|].
  destruct (fdiv_spec (fofZ M) (fofZ N) FM) as [V4 F4]; [rewrite VN; lra|rewrite VM, VN; exact O3|].
  rewrite VM, VN in V4. pose proof (half_range _ _ _ _ R3 N3) as R4.
  (* times b *)
  pose proof (mul_range _ _ _ _ _ _ R4 Rb) as R5.
  destruct (rnd_near (rnd64 (IZR M / IZR N) * fval b) 152) as [N5 O5];
    [eapply Rle_trans; [|apply R5]; apply bpow_le; lia|eapply Rle_trans; [apply R5|]; apply bpow_le; lia|lia|].
  destruct (fmul_spec (fdiv (fofZ M) (fofZ N)) b F4 Fb) as [V5 F5]; [rewrite V4; exact O5|].
  rewrite V4 in V5. pose proof (half_range _ _ _ _ R5 N5) as R6.
  set (z := rnd64 (rnd64 (IZR M / IZR N) * fval b)) in *.
  (* over a *)
  pose proof (div_range _ _ _ _ _ _ R6 Ra) as R7.
  destruct (rnd_near (z / fval a) 253) as [N7 O7];
    [eapply Rle_trans; [|apply R7]; apply bpow_le; lia|eapply Rle_trans; [apply R7|]; apply bpow_le; lia|lia|].
  destruct (fdiv_spec (fmul (fdiv (fofZ M) (fofZ N)) b) a F5) as [V7 F7]; [lra|rewrite V5; exact O7|].
  rewrite V5 in V7. pose proof (half_range _ _ _ _ R7 N7) as R8.
  set (mag := fdiv (fmul (fdiv (fofZ M) (fofZ N)) b) a) in *.
  assert (Pm : 0 < fval mag) by (rewrite V7; eapply Rlt_le_trans; [apply bpow_gt_0|apply R8]).
  (* the function *)
  assert (Z0 : fval fzero = 0) by reflexivity.
  assert (W : magnification_f a b N = if flt (fofZ 1) mag then Err TypeError else Ok mag).
  { unfold magnification_f.
    rewrite guard_true.
    2:{ apply negb_true_iff. destruct (feq b fzero) eqn:Q; auto. apply feq_spec in Q; auto. lra. }
    rewrite (int_of_float_IZR _ M); [|congruence|rewrite V3, V2; reflexivity]. cbn [bind].
    rewrite guard_true by (apply negb_true_iff, Z.eqb_neq; lia). cbv zeta.
    rewrite guard_true.
    2:{ apply negb_true_iff. destruct (feq a fzero) eqn:Q; auto. apply feq_spec in Q; auto. lra. }
    fold mag. rewrite guard_true.
    2:{ apply negb_true_iff. rewrite fle_val by auto. apply Rle_bool_false. rewrite Z0. exact Pm. }
    destruct (flt (fofZ 1) mag); reflexivity. }
  destruct (fofZ_spec 1 ltac:(lia)) as [V8 F8].
  rewrite W. destruct (flt (fofZ 1) mag) eqn:L.
  2:{ left. exists mag. split; [reflexivity|]. split; auto.
      destruct (Rle_or_lt (fval mag) 1) as [|G]; auto. exfalso. assert (flt (fofZ 1) mag = true) by (apply flt_spec; auto; lra). congruence. }
  right. split; [reflexivity|]. exists M. split; auto.
  apply flt_spec in L; auto. rewrite V8 in L.
  (* refused: M b (1 + u) exceeds a N *)
  assert (G : fval a * IZR N < IZR M * fval b * (1 + u)).
  { destruct (Rlt_or_le (fval a * IZR N) (IZR M * fval b * (1 + u))) as [|Q]; auto. exfalso.
    apply Rabs_le_inv in E3.
    assert (K : rnd64 (IZR M / IZR N) * fval b <= fval a).
    { rewrite Q3. apply Rmult_le_reg_r with (IZR N); auto.
      replace (IZR M / IZR N * (1 + e3) * fval b * IZR N) with (IZR M * fval b * (1 + e3)) by (field; lra).
      assert (0 < IZR M * fval b) by (apply Rmult_lt_0_compat; auto). nra. }
    assert (K2 : z <= fval a).
    { unfold z. rewrite <- (round_generic radix2 flt_exp ZnearestE (fval a) (fval_format a)) at 1.
      apply round_le; auto with typeclass_instances. }
    assert (K3 : z / fval a <= 1) by (apply Rmult_le_reg_r with (fval a); auto; field_simplify; lra).
    assert (K4 : rnd64 (z / fval a) <= 1).
    { rewrite <- (round_generic radix2 flt_exp ZnearestE 1) at 1.
      - apply round_le; auto with typeclass_instances.
      - exact (fmt_IZR 1 ltac:(lia)). }
    lra. }
  assert (G2 : t < IZR M * (1 + u)).
  { unfold t. apply Rmult_lt_reg_r with (fval b); auto.
    replace (fval a / fval b * IZR N * fval b) with (fval a * IZR N) by (field; lra). lra. }
  assert (G3 : IZR M <= t * ((1 + u) * (1 + u))).
  { eapply Rle_trans; [exact Mq|]. rewrite Eq, Rmult_assoc. apply Rmult_le_compat_l; [lra|].
    apply Rmult_le_compat; lra. }
  replace (B (-52)) with (2 * u) by (change (-52)%Z with (-53 + 1)%Z; rewrite bpow_plus; change (B 1) with 2; ring).
  apply Rabs_le. split; [|nra]. nra.
Qed.

Lemma magnification_outcomes (a b : f64) N : ordinary a -> ordinary b -> (1 <= N <= 2 ^ 50)%Z ->
  2 <= fval a / fval b * IZR N <= B 50 ->
  (exists mag, magnification_f a b N = Ok mag /\ 0 < fval mag <= 1) \/
  (magnification_f a b N = Err TypeError /\ nearly_integer (fval a / fval b * IZR N)).
Proof. intros [Fa Ra] [Fb Rb] HN Ht. exact (magnification_f_ok a b N Fa Fb Ra Rb HN Ht). Qed.
Lemma magnification_accepts (a b : f64) N : ordinary a -> ordinary b -> (1 <= N <= 2 ^ 50)%Z ->
  2 <= fval a / fval b * IZR N <= B 50 -> ~ nearly_integer (fval a / fval b * IZR N) ->
  exists mag, magnification_f a b N = Ok mag /\ 0 < fval mag <= 1.
Proof. intros Ha Hb HN Ht Hn. destruct (magnification_outcomes a b N Ha Hb HN Ht) as [|[_ H]]; auto. contradiction. Qed.
