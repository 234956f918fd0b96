(** Proofs about the binary64 trial grids. *)
From Coq Require Import ZArith Reals Bool Lia Lra.
From Flocq Require Import Core BinarySingleNaN Mult_error.
From Verif.Base Require Import F64.
From Verif.Model Require Import ShapesF SearchF.
From Verif.Spec Require Import SearchFSpec.
From Verif.Proofs Require Import F64P ShapesFP ShapesFA DarkHoleFP.
Local Open Scope R_scope.
Local Notation B := (bpow radix2).
Local Notation u := (B (-53)).

(** ** Grids about an estimate *)
Lemma steps_val n s e i : moderate s -> moderate e -> (0 <= i < n)%Z -> (n <= 2 ^ 50)%Z ->
  fval (steps_f n s e i) = rnd64 (rnd64 (rnd64 (IZR i * fval s) - rnd64 (IZR (n - 1) / 2 * fval s)) + fval e) /\
  is_finite (steps_f n s e i) = true.
Proof.
  intros Ws We Hi Hn. change (within 400 s) in Ws. change (within 400 e) in We. unfold steps_f.
  destruct (fofZ_spec i ltac:(lia)) as [Vi Fi].
  destruct (fmul_within 51 400 (fofZ i) s ltac:(lia) (fofZ_within 51 i ltac:(lia) ltac:(lia)) Ws) as [V1 W1].
  destruct (half_within (n - 1) ltac:(lia)) as [Vh Wh].
  destruct (fmul_within 51 400 _ s ltac:(lia) Wh Ws) as [V2 W2].
  destruct (fsub_within 451 _ _ ltac:(lia) W1 W2) as [V3 W3].
  destruct (fadd_within 452 _ e ltac:(lia) W3 (within_le 400 452 e ltac:(lia) We)) as [V4 W4].
  split; [|apply W4]. rewrite V4, V3, V1, V2, Vi, Vh. reflexivity.
Qed.
Lemma steps_middle k s e : moderate s -> moderate e -> (0 <= k < 2 ^ 49)%Z ->
  fval (steps_f (2 * k + 1) s e k) = fval e /\ is_finite (steps_f (2 * k + 1) s e k) = true.
Proof.
  intros Ws We Hk. destruct (steps_val (2 * k + 1) s e k Ws We ltac:(lia) ltac:(lia)) as [V F]. split; auto.
  rewrite V. replace (IZR (2 * k + 1 - 1) / 2) with (IZR k).
  - rewrite Rminus_diag_eq by reflexivity. rewrite rnd_0, Rplus_0_l. apply rnd_id, fval_format.
  - replace (2 * k + 1 - 1)%Z with (2 * k)%Z by lia. rewrite mult_IZR. field.
Qed.
Lemma steps_ordered n s e i j : moderate s -> moderate e -> 0 <= fval s -> (0 <= i <= j)%Z -> (j < n <= 2 ^ 50)%Z ->
  fval (steps_f n s e i) <= fval (steps_f n s e j).
Proof.
  intros Ws We Ps Hi Hj. rewrite (proj1 (steps_val n s e i Ws We ltac:(lia) ltac:(lia))), (proj1 (steps_val n s e j Ws We ltac:(lia) ltac:(lia))).
  apply rnd_mono, Rplus_le_compat_r, rnd_mono. unfold Rminus. apply Rplus_le_compat_r, rnd_mono.
  apply Rmult_le_compat_r; auto. apply IZR_le. lia.
Qed.
Lemma tiny_le x : B (-1000) <= x -> B (-1075) <= u * x.
Proof.
  intros H. apply Rle_trans with (u * B (-1000)).
  - rewrite <- bpow_plus. apply bpow_le. lia.
  - apply Rmult_le_compat_l; [apply bpow_ge_0|exact H].
Qed.
Lemma steps_near n s e i : moderate s -> moderate e -> B (-1000) <= fval s -> (0 <= i < n)%Z -> (n <= 2 ^ 50)%Z ->
  Rabs (fval (steps_f n s e i) - centred n (fval s) (fval e) i) <= B (-50) * (IZR n * fval s + Rabs (fval e)).
Proof.
  intros Ws We Hs Hi Hn. rewrite (proj1 (steps_val n s e i Ws We Hi Hn)). unfold centred.
  set (S := fval s) in *. set (E := fval e).
  assert (PS : 0 <= S) by (eapply Rle_trans; [apply bpow_ge_0|exact Hs]).
  assert (Hi0 : 0 <= IZR i) by (apply IZR_le; lia).
  assert (Hi1 : IZR i <= IZR n - 1) by (rewrite <- minus_IZR; apply IZR_le; lia).
  assert (Hn1 : 1 <= IZR n) by (apply IZR_le; lia).
  set (X := IZR n * S). assert (XS : S <= X) by (unfold X; nra).
  rewrite minus_IZR. set (a := IZR i * S). set (b := (IZR n - 1) / 2 * S).
  assert (Ha : 0 <= a <= X) by (unfold a, X; split; nra).
  assert (Hb : 0 <= b <= X / 2) by (unfold b, X; split; nra).
  assert (Hab : Rabs (a - b) <= X / 2) by (apply Rabs_le; unfold a, b, X in *; split; nra).
  replace ((IZR i - (IZR n - 1) / 2) * S) with (a - b) by (unfold a, b; ring).
  pose proof (rnd_err_rel a) as E1. pose proof (rnd_err_rel b) as E2.
  rewrite (Rabs_pos_eq a) in E1 by lra. rewrite (Rabs_pos_eq b) in E2 by lra.
  set (ra := rnd64 a) in *. set (rb := rnd64 b) in *.
  pose proof (rnd_err_rel (ra - rb)) as E3. set (d := rnd64 (ra - rb)) in *.
  pose proof (rnd_err_rel (d + E)) as E4.
  pose proof (tiny_le S Hs) as T. pose proof u_tiny as U. assert (PE : 0 <= Rabs E) by apply Rabs_pos.
  assert (TX : B (-1075) <= u * X) by nra.
  assert (Q : u * (u * X) <= / 1000000 * (u * X)) by (apply Rmult_le_compat_r; [nra|lra]).
  assert (Q2 : u * (u * Rabs E) <= / 1000000 * (u * Rabs E)) by (apply Rmult_le_compat_r; [nra|lra]).
  assert (UX : 0 <= u * X) by nra. assert (UE : 0 <= u * Rabs E) by nra.
  assert (K1 : Rabs (ra - a) <= 2 * (u * X)) by nra.
  assert (K2 : Rabs (rb - b) <= 2 * (u * X)) by nra.
  assert (K3 : Rabs (ra - rb) <= X / 2 + 4 * (u * X)).
  { replace (ra - rb) with ((ra - a) + - (rb - b) + (a - b)) by ring.
    eapply Rle_trans; [apply Rabs_triang|]. pose proof (Rabs_triang (ra - a) (- (rb - b))) as Q3. rewrite Rabs_Ropp in Q3. lra. }
  assert (K4 : Rabs (d - (ra - rb)) <= 2 * (u * X)).
  { eapply Rle_trans; [exact E3|]. assert (u * Rabs (ra - rb) <= u * (X / 2 + 4 * (u * X))) by (apply Rmult_le_compat_l; lra).
    replace (u * (X / 2 + 4 * (u * X))) with (u * X / 2 + 4 * (u * (u * X))) in H by field. lra. }
  assert (K5 : Rabs (d + E) <= X + Rabs E).
  { replace (d + E) with ((d - (ra - rb)) + (ra - rb) + E) by ring.
    pose proof (Rabs_triang ((d - (ra - rb)) + (ra - rb)) E). pose proof (Rabs_triang (d - (ra - rb)) (ra - rb)).
    assert (u * X <= / 1000000 * X) by (apply Rmult_le_compat_r; lra). lra. }
  assert (K6 : Rabs (rnd64 (d + E) - (d + E)) <= 2 * (u * X) + u * Rabs E).
  { eapply Rle_trans; [exact E4|]. assert (u * Rabs (d + E) <= u * (X + Rabs E)) by (apply Rmult_le_compat_l; lra). rewrite Rmult_plus_distr_l in H. lra. }
  replace (rnd64 (d + E) - (E + (a - b)))
    with ((rnd64 (d + E) - (d + E)) + (d - (ra - rb)) + (ra - a) + - (rb - b)) by ring.
  pose proof (Rabs_triang ((rnd64 (d + E) - (d + E)) + (d - (ra - rb)) + (ra - a)) (- (rb - b))) as T1.
  pose proof (Rabs_triang ((rnd64 (d + E) - (d + E)) + (d - (ra - rb))) (ra - a)) as T2.
  pose proof (Rabs_triang (rnd64 (d + E) - (d + E)) (d - (ra - rb))) as T3.
  rewrite Rabs_Ropp in T1.
  replace (B (-50)) with (8 * u) by (change (-50)%Z with (3 + -53)%Z; rewrite bpow_plus; reflexivity).
  lra.
Qed.
(** Multiples of 2^-t. *)
Lemma grid_scale t z q : IZR q * (IZR z / IZR (2 ^ t)) = IZR (q * z) / IZR (2 ^ t).
Proof. rewrite mult_IZR. unfold Rdiv. ring. Qed.
Lemma steps_exact t n s e i : (0 <= t <= 900)%Z -> moderate s -> moderate e -> coarse_step t n s -> coarse_step t 1 e ->
  (0 <= i < n)%Z -> (n <= 2 ^ 50)%Z ->
  fval (steps_f n s e i) = centred n (fval s) (fval e) i.
Proof.
  intros Ht Ws We (z & _ & Vs & Bs) (w & _ & Ve & Be) Hi Hn. rewrite (proj1 (steps_val n s e i Ws We Hi Hn)).
  assert (P : IZR (2 ^ t) <> 0) by (apply not_0_IZR; pose proof (Z.pow_pos_nonneg 2 t); lia).
  assert (E1 : forall q : Z, IZR q / IZR (2 ^ t) = IZR (2 * q) / IZR (2 ^ (t + 1))).
  { intros q. rewrite Z.pow_add_r by lia. change (2 ^ 1)%Z with 2%Z. rewrite !mult_IZR. field. auto. }
  assert (A1 : IZR i * fval s = IZR (2 * (i * z)) / IZR (2 ^ (t + 1))) by (rewrite Vs, grid_scale; apply E1).
  assert (A2 : IZR (n - 1) / 2 * fval s = IZR ((n - 1) * z) / IZR (2 ^ (t + 1))).
  { rewrite Vs, Z.pow_add_r by lia. change (2 ^ 1)%Z with 2%Z. rewrite !mult_IZR. field. auto. }
  assert (A3 : fval e = IZR (2 * w) / IZR (2 ^ (t + 1))) by (rewrite Ve; apply E1).
  assert (Bi : (Z.abs (i * z) <= 2 ^ 50)%Z) by (rewrite Z.abs_mul; nia).
  assert (Bn : (Z.abs ((n - 1) * z) <= 2 ^ 50)%Z) by (rewrite Z.abs_mul; nia).
  unfold centred. replace (fval e + (IZR i - IZR (n - 1) / 2) * fval s) with (IZR i * fval s - IZR (n - 1) / 2 * fval s + fval e) by ring.
  rewrite A1, A2, A3, !rnd_grid by lia. unfold Rdiv. rewrite <- Rmult_minus_distr_r, <- minus_IZR.
  change (rnd64 (rnd64 (IZR (2 * (i * z) - (n - 1) * z) / IZR (2 ^ (t + 1))) + IZR (2 * w) / IZR (2 ^ (t + 1))) =
          IZR (2 * (i * z) - (n - 1) * z) / IZR (2 ^ (t + 1)) + IZR (2 * w) / IZR (2 ^ (t + 1))).
  rewrite rnd_grid by lia. unfold Rdiv. rewrite <- Rmult_plus_distr_r, <- plus_IZR.
  apply rnd_grid; lia.
Qed.

(** ** Grids over a symmetric range *)
Lemma fmt_double (a : f64) : fmt64 (2 * fval a).
Proof.
  destruct (Req_dec (fval a) 0) as [->|N]; [rewrite Rmult_0_r; apply generic_format_0|].
  pose proof (fval_format a) as F. apply FLT_format_generic in F; [|reflexivity]. destruct F as [[m e] E1 E2 E3].
  apply generic_format_FLT. exists (Float radix2 m (e + 1)); cbn [Fnum Fexp] in *; auto; [|lia].
  rewrite E1. unfold F2R. cbn [Fnum Fexp]. rewrite bpow_plus. change (B 1) with 2. ring.
Qed.
Lemma opp_within k a : within k a -> within k (fopp a) /\ fval (fopp a) = - fval a.
Proof.
  intros [F W]. assert (V : fval (fopp a) = - fval a) by apply B2R_Bopp.
  split; auto. split; [unfold fopp; rewrite is_finite_Bopp; exact F|]. rewrite V, Rabs_Ropp. exact W.
Qed.
Section Range.
Variables (n : Z) (a : f64).
Hypotheses (Wa : moderate a) (Pa : B (-900) <= fval a) (Hn : (2 <= n <= 2 ^ 50)%Z).
Let step : R := rnd64 (2 * fval a / IZR (n - 1)).
Lemma a_pos : 0 < fval a.
Proof. eapply Rlt_le_trans; [apply bpow_gt_0|exact Pa]. Qed.
Lemma n1_pos : 1 <= IZR (n - 1).
Proof. apply (IZR_le 1). lia. Qed.
Lemma step_big : B (-950) <= 2 * fval a / IZR (n - 1).
Proof.
  pose proof a_pos. pose proof n1_pos. apply Rmult_le_reg_r with (IZR (n - 1)); [lra|].
  replace (2 * fval a / IZR (n - 1) * IZR (n - 1)) with (2 * fval a) by (field; lra).
  apply Rle_trans with (B (-950) * B 50).
  - apply Rmult_le_compat_l; [apply bpow_ge_0|]. rewrite <- (IZR_Zpower radix2) by lia. apply IZR_le. change (Z.pow radix2 50) with (2 ^ 50)%Z. lia.
  - rewrite <- bpow_plus. change (-950 + 50)%Z with (-900)%Z. lra.
Qed.
Lemma step_pos : 0 < step.
Proof.
  unfold step. apply Rlt_le_trans with (B (-950)); [apply bpow_gt_0|].
  rewrite <- (rnd_id (B (-950))); [apply rnd_mono, step_big|]. apply generic_format_bpow. unfold FLT_exp. lia.
Qed.
Lemma range_last : range_f n a (n - 1) = a.
Proof. unfold range_f, linspace_f. destruct (Z.eqb_spec n 1) as [E|E]; [lia|]. rewrite Z.eqb_refl. reflexivity. Qed.
Lemma range_val i : (0 <= i < n - 1)%Z -> fval (range_f n a i) = rnd64 (rnd64 (IZR i * step) - fval a) /\
  is_finite (range_f n a i) = true.
Proof.
  intros Hi. unfold range_f, linspace_f. destruct (Z.eqb_spec n 1) as [E|E]; [lia|]. destruct (Z.eqb_spec i (n - 1)) as [E2|E2]; [lia|].
  cbv zeta. destruct (opp_within 400 a Wa) as [Wo Vo].
  destruct (fsub_within 400 a (fopp a) ltac:(lia) Wa Wo) as [Vd Wd]. rewrite Vo in Vd.
  replace (fval a - - fval a) with (2 * fval a) in Vd by ring. rewrite (rnd_id _ (fmt_double a)) in Vd.
  destruct (fdiv_int_within 401 _ (n - 1) ltac:(lia) Wd ltac:(lia)) as [Vs Ws]. rewrite Vd in Vs. fold step in Vs.
  rewrite feq_val by (apply Ws || reflexivity). rewrite Vs. change (fval fzero) with 0. rewrite Req_bool_false by (pose proof step_pos; lra).
  destruct (fofZ_spec i ltac:(lia)) as [Vi Fi].
  destruct (fmul_within 51 401 (fofZ i) _ ltac:(lia) (fofZ_within 51 i ltac:(lia) ltac:(lia)) Ws) as [Vm Wm].
  destruct (fadd_within 452 _ (fopp a) ltac:(lia) Wm (within_le 400 452 _ ltac:(lia) Wo)) as [V W].
  split; [|apply W]. rewrite V, Vm, Vi, Vs, Vo. reflexivity.
Qed.
Lemma range_first : fval (range_f n a 0) = - fval a.
Proof.
  rewrite (proj1 (range_val 0 ltac:(lia))). rewrite Rmult_0_l, rnd_0, Rminus_0_l, rnd_opp. f_equal. apply rnd_id, fval_format.
Qed.
Lemma range_finite i : (0 <= i < n)%Z -> is_finite (range_f n a i) = true.
Proof.
  intros Hi. destruct (Z.eq_dec i (n - 1)) as [->|N]; [rewrite range_last; apply Wa|]. apply range_val. lia.
Qed.
(** The products stay below twice the limit. *)
Lemma product_le i : (0 <= i < n - 1)%Z -> rnd64 (IZR i * step) <= 2 * fval a.
Proof.
  intros Hi. rewrite <- (rnd_id _ (fmt_double a)) at 1. apply rnd_mono.
  pose proof a_pos as Ha. pose proof n1_pos as Hm. pose proof u_tiny as U.
  assert (Hi0 : 0 <= IZR i) by (apply IZR_le; lia).
  assert (Hi1 : IZR i <= IZR (n - 1) - 1) by (rewrite <- minus_IZR; apply IZR_le; lia).
  pose proof (rnd_err_rel (2 * fval a / IZR (n - 1))) as E. fold step in E.
  assert (Q : B (-1000) <= 2 * fval a / IZR (n - 1)) by (eapply Rle_trans; [apply bpow_le|apply step_big]; lia).
  pose proof (tiny_le _ Q) as T. set (q := 2 * fval a / IZR (n - 1)) in *.
  assert (Pq : 0 < q) by (eapply Rlt_le_trans; [apply bpow_gt_0|exact Q]).
  rewrite (Rabs_pos_eq q) in E by lra. apply Rabs_le_inv in E.
  assert (Hq : 2 * fval a = q * IZR (n - 1)) by (unfold q; field; lra).
  assert (Hu : 2 * u * IZR (n - 1) <= 1).
  { apply Rle_trans with (2 * u * B 50).
    - apply Rmult_le_compat_l; [lra|]. rewrite <- (IZR_Zpower radix2) by lia. apply IZR_le. change (Z.pow radix2 50) with (2 ^ 50)%Z. lia.
    - change 2 with (B 1). rewrite <- !bpow_plus. change (1 + -53 + 50)%Z with (-2)%Z. cbn. lra. }
  rewrite Hq. apply Rle_trans with ((IZR (n - 1) - 1) * (q * (1 + 2 * u))).
  - apply Rmult_le_compat; try lra. apply Rlt_le, step_pos.
  - assert (0 <= q * (1 - 2 * u * IZR (n - 1) + 2 * u)) by (apply Rmult_le_pos; lra).
    replace ((IZR (n - 1) - 1) * (q * (1 + 2 * u))) with (q * IZR (n - 1) - q * (1 - 2 * u * IZR (n - 1) + 2 * u)) by ring. lra.
Qed.
Lemma range_ordered i j : (0 <= i <= j)%Z -> (j < n)%Z -> fval (range_f n a i) <= fval (range_f n a j).
Proof.
  intros Hi Hj. destruct (Z.eq_dec i (n - 1)) as [->|Ni]; [assert (j = n - 1)%Z as -> by lia; lra|].
  rewrite (proj1 (range_val i ltac:(lia))). destruct (Z.eq_dec j (n - 1)) as [->|Nj].
  - rewrite range_last. rewrite <- (rnd_id (fval a)) by apply fval_format. apply rnd_mono.
    pose proof (product_le i ltac:(lia)) as P. rewrite (rnd_id (fval a)) by apply fval_format. lra.
  - rewrite (proj1 (range_val j ltac:(lia))). apply rnd_mono. unfold Rminus. apply Rplus_le_compat_r, rnd_mono.
    apply Rmult_le_compat_r; [apply Rlt_le, step_pos|]. apply IZR_le. lia.
Qed.
Lemma range_near i : (0 <= i < n)%Z -> Rabs (fval (range_f n a i) - spread n (fval a) i) <= B (-50) * fval a.
Proof.
  intros Hi. pose proof a_pos as Ha. pose proof n1_pos as Hm. pose proof u_tiny as U. unfold spread.
  replace (B (-50)) with (8 * u) by (change (-50)%Z with (3 + -53)%Z; rewrite bpow_plus; reflexivity).
  assert (Ua : 0 <= u * fval a) by nra.
  destruct (Z.eq_dec i (n - 1)) as [->|N].
  { rewrite range_last. replace (fval a - (- fval a + 2 * fval a * IZR (n - 1) / IZR (n - 1))) with 0 by (field; lra). rewrite Rabs_R0. lra. }
  rewrite (proj1 (range_val i ltac:(lia))).
  assert (Hi0 : 0 <= IZR i) by (apply IZR_le; lia).
  assert (Hi1 : IZR i <= IZR (n - 1)) by (apply IZR_le; lia).
  pose proof (rnd_err_rel (2 * fval a / IZR (n - 1))) as E. fold step in E.
  assert (Q : B (-1000) <= 2 * fval a / IZR (n - 1)) by (eapply Rle_trans; [apply bpow_le|apply step_big]; lia).
  pose proof (tiny_le _ Q) as T. pose proof step_pos as Ps.
  pose proof (product_le i ltac:(lia)) as Pl.
  replace (2 * fval a * IZR i / IZR (n - 1)) with (IZR i * (2 * fval a / IZR (n - 1))) by (unfold Rdiv; ring).
  assert (Hq : IZR (n - 1) * (2 * fval a / IZR (n - 1)) = 2 * fval a) by (field; lra).
  set (q := 2 * fval a / IZR (n - 1)) in *. assert (Pq : 0 < q) by (eapply Rlt_le_trans; [apply bpow_gt_0|exact Q]).
  rewrite (Rabs_pos_eq q) in E by lra.
  assert (Lq : IZR i * q <= 2 * fval a) by (rewrite <- Hq; apply Rmult_le_compat_r; lra).
  assert (Ta : B (-1075) <= u * fval a) by (apply tiny_le; eapply Rle_trans; [apply bpow_le|exact Pa]; lia).
  (* the product *)
  set (x := IZR i * step) in *. pose proof (rnd_err_rel x) as E2. set (y := rnd64 x) in *.
  pose proof (rnd_err_rel (y - fval a)) as E3.
  assert (Y0 : 0 <= y) by (apply rnd_nonneg; unfold x; apply Rmult_le_pos; lra).
  (* i step - i q *)
  assert (K1 : Rabs (x - IZR i * q) <= 4 * (u * fval a)).
  { unfold x. rewrite <- Rmult_minus_distr_l, Rabs_mult, (Rabs_pos_eq (IZR i)) by lra.
    apply Rle_trans with (IZR i * (2 * (u * q))).
    - apply Rmult_le_compat_l; lra.
    - replace (IZR i * (2 * (u * q))) with (2 * u * (IZR i * q)) by ring.
      replace (4 * (u * fval a)) with (2 * u * (2 * fval a)) by ring. apply Rmult_le_compat_l; lra. }
  assert (X1 : Rabs x <= 2 * fval a + 4 * (u * fval a)).
  { unfold x. rewrite Rabs_pos_eq by (apply Rmult_le_pos; lra). apply Rabs_le_inv in K1. unfold x in K1. lra. }
  assert (UU : u * (u * fval a) <= / 1000000 * (u * fval a)) by (apply Rmult_le_compat_r; lra).
  assert (Y1 : Rabs (y - x) <= 2 * (u * fval a) + 4 * (u * (u * fval a)) + B (-1075)).
  { eapply Rle_trans; [exact E2|]. assert (Z1 : u * Rabs x <= u * (2 * fval a + 4 * (u * fval a))) by (apply Rmult_le_compat_l; lra).
    rewrite Rmult_plus_distr_l in Z1. lra. }
  assert (YA : Rabs (y - fval a) <= fval a) by (apply Rabs_le; lra).
  assert (W1 : Rabs (rnd64 (y - fval a) - (y - fval a)) <= u * fval a + B (-1075)).
  { eapply Rle_trans; [exact E3|]. apply Rplus_le_compat_r. apply Rmult_le_compat_l; lra. }
  replace (B (-1075)) with (B (-1075)) in * by reflexivity.
  assert (T2 : B (-1075) <= / 1000000 * (u * fval a)).
  { apply Rle_trans with (u * (B (-20) * fval a)).
    - apply tiny_le. apply Rle_trans with (B (-20) * B (-900)); [rewrite <- bpow_plus; apply bpow_le; lia|].
      apply Rmult_le_compat_l; [apply bpow_ge_0|exact Pa].
    - replace (u * (B (-20) * fval a)) with (B (-20) * (u * fval a)) by ring. apply Rmult_le_compat_r; [lra|]. cbn. lra. }
  replace (rnd64 (y - fval a) - (- fval a + IZR i * q)) with
    ((rnd64 (y - fval a) - (y - fval a)) + (y - x) + (x - IZR i * q)) by ring.
  pose proof (Rabs_triang ((rnd64 (y - fval a) - (y - fval a)) + (y - x)) (x - IZR i * q)) as T3.
  pose proof (Rabs_triang (rnd64 (y - fval a) - (y - fval a)) (y - x)) as T4.
  lra.
Qed.
End Range.
Lemma range_one a : moderate a -> fval (range_f 1 a 0) = - fval a.
Proof.
  intros Wa. unfold range_f, linspace_f. rewrite Z.eqb_refl. destruct (opp_within 400 a Wa) as [Wo Vo].
  destruct (fsub_within 400 a (fopp a) ltac:(lia) Wa Wo) as [Vd Wd].
  destruct (fofZ_spec 0 ltac:(lia)) as [V0 F0].
  destruct (fmul_within 0 401 (fofZ 0) _ ltac:(lia) (fofZ_within 0 0 ltac:(lia) ltac:(lia)) Wd) as [Vm Wm]. rewrite V0, Rmult_0_l, rnd_0 in Vm.
  destruct (fadd_within 401 _ (fopp a) ltac:(lia) Wm (within_le 400 401 _ ltac:(lia) Wo)) as [V W].
  rewrite V, Vm, Rplus_0_l, Vo, rnd_opp. f_equal. apply rnd_id, fval_format.
Qed.
Lemma range_middle m a : moderate a -> B (-900) <= fval a -> (1 <= m <= 49)%Z ->
  fval (range_f (2 ^ m + 1) a (2 ^ (m - 1))) = 0.
Proof.
  intros Wa Pa Hm. assert (P2 : (2 ^ m = 2 * 2 ^ (m - 1))%Z).
  { replace m with (1 + (m - 1))%Z at 1 by lia. rewrite Z.pow_add_r by lia. reflexivity. }
  assert (P1 : (1 <= 2 ^ (m - 1))%Z) by (pose proof (Z.pow_pos_nonneg 2 (m - 1)); lia).
  assert (P3 : (2 ^ m <= 2 ^ 49)%Z) by (apply Z.pow_le_mono_r; lia).
  rewrite (proj1 (range_val (2 ^ m + 1) a Wa Pa ltac:(lia) (2 ^ (m - 1)) ltac:(lia))).
  replace (2 ^ m + 1 - 1)%Z with (2 ^ m)%Z by lia.
  assert (V : 2 * fval a / IZR (2 ^ m) = fval a * B (1 - m)).
  { rewrite pow2_bpow by lia. unfold Rdiv. rewrite <- bpow_opp. replace (1 - m)%Z with (1 + - m)%Z by lia. rewrite bpow_plus.
    change (B 1) with 2. ring. }
  assert (F : fmt64 (fval a * B (1 - m))).
  { apply (mult_bpow_exact_FLT radix2 (-1074) 53); [apply fval_format|].
    assert (-900 < mag radix2 (fval a))%Z.
    { apply mag_gt_bpow. rewrite Rabs_pos_eq; auto. eapply Rle_trans; [apply bpow_ge_0|exact Pa]. }
    lia. }
  rewrite V, (rnd_id _ F). rewrite pow2_bpow by lia.
  replace (B (m - 1) * (fval a * B (1 - m))) with (fval a).
  - rewrite (rnd_id _ (fval_format a)), Rminus_diag_eq by reflexivity. apply rnd_0.
  - replace (B (m - 1) * (fval a * B (1 - m))) with (fval a * (B (m - 1) * B (1 - m))) by ring.
    rewrite <- bpow_plus. replace (m - 1 + (1 - m))%Z with 0%Z by lia. change (B 0) with 1. ring.
Qed.

(** ** Grids about an estimate over a shrinking range *)
Section Shrunk.
Variables (n : Z) (est shrink a : f64).
Hypotheses (We : moderate est) (Ws : within 0 shrink) (Ps : 0 <= fval shrink)
  (Wa : moderate a) (Pa : B (-900) <= fval a) (Hn : (2 <= n <= 2 ^ 50)%Z).
Lemma range_within i : (0 <= i < n)%Z -> within 400 (range_f n a i).
Proof.
  intros Hi. split; [apply range_finite; auto|]. eapply Rle_trans; [|apply Wa].
  pose proof (a_pos a Pa) as Ha. rewrite (Rabs_pos_eq (fval a)) by lra. apply Rabs_le. split.
  - rewrite <- (range_first n a Wa Pa Hn). apply range_ordered; auto; lia.
  - rewrite <- (range_last n a Hn) at 2. apply range_ordered; auto; lia.
Qed.
Lemma shrunk_val i : (0 <= i < n)%Z -> fval (shrunk_f n est shrink a i) = rnd64 (fval est + rnd64 (fval shrink * fval (range_f n a i))) /\
  is_finite (shrunk_f n est shrink a i) = true.
Proof.
  intros Hi. unfold shrunk_f. destruct (fmul_within 0 400 shrink _ ltac:(lia) Ws (range_within i Hi)) as [Vm Wm].
  destruct (fadd_within 400 est _ ltac:(lia) We Wm) as [V W]. rewrite Vm in V. split; [exact V|apply W].
Qed.
Lemma shrunk_ordered i j : (0 <= i <= j)%Z -> (j < n)%Z -> fval (shrunk_f n est shrink a i) <= fval (shrunk_f n est shrink a j).
Proof.
  intros Hi Hj. rewrite (proj1 (shrunk_val i ltac:(lia))), (proj1 (shrunk_val j ltac:(lia))).
  apply rnd_mono, Rplus_le_compat_l, rnd_mono, Rmult_le_compat_l; auto. apply range_ordered; auto.
Qed.
Lemma shrunk_middle i : (0 <= i < n)%Z -> fval (range_f n a i) = 0 -> fval (shrunk_f n est shrink a i) = fval est.
Proof.
  intros Hi Z. rewrite (proj1 (shrunk_val i Hi)), Z, Rmult_0_r, rnd_0, Rplus_0_r. apply rnd_id, fval_format.
Qed.
End Shrunk.
