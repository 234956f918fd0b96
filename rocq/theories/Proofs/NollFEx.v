(** Zernike modes in double precision: library routines meeting the assumptions, and a mode computed wrongly. *)
From Coq Require Import ZArith Reals Bool List Lia Lra Psatz.
From Flocq Require Import Core BinarySingleNaN Relative.
From Verif.Base Require Import Py F64 Arr Sums Loop Trig.
From Verif.Model Require Import Math Noll NollF.
From Verif.Spec Require Import MathSpec ZernikeSpec NollFSpec.
From Verif.Proofs Require Import F64P F64N LibmRef ZernP NollP NollFP NollFQ NollFR.
Import ListNotations.
Local Open Scope R_scope.
Local Notation B := (bpow radix2).

Definition hypot_ref (x y : f64) : f64 := of_R (sqrt (fval x * fval x + fval y * fval y)).
Definition atan2_ref (y x : f64) : f64 := of_R (arctan2 (fval y) (fval x)).
Definition cos_ref (t : f64) : f64 := of_R (cos (fval t)).
Definition sin_ref (t : f64) : f64 := of_R (sin (fval t)).
Lemma hypot_ref_ok : hypot_ok hypot_ref.
Proof.
  intros x y Fx Fy Hx Hy d. assert (D0 : 0 <= d) by apply sqrt_pos.
  assert (D : d <= B 501).
  { assert (Sq : d * d = fval x * fval x + fval y * fval y) by (apply sqrt_sqrt; nra). pose proof (bpow_gt_0 radix2 500) as P. change 501%Z with (1 + 500)%Z. rewrite bpow_plus. change (B 1) with 2.
    apply Rabs_le_inv in Hx. apply Rabs_le_inv in Hy. nra. }
  destruct (of_R_spec d) as [V F]; [rewrite Rabs_right by lra; eapply Rle_trans; [exact D|apply bpow_le; lia]|].
  split; [exact F|]. unfold hypot_ref. fold d. rewrite V. eapply Rle_trans; [apply rnd_err|]. rewrite Rabs_right by lra.
  apply Rplus_le_compat; [apply Rmult_le_compat_r; auto|]; apply bpow_le; lia.
Qed.
Lemma near_ref x : Rabs x <= 4 -> is_finite (of_R x) = true /\ Rabs (fval (of_R x) - x) <= B (-53) * Rabs x + B (-1075).
Proof. intros H. destruct (of_R_spec x (small_1000 x H)) as [V F]. split; auto. rewrite V. apply rnd_err. Qed.
Lemma atan2_ref_ok : atan2_ok atan2_ref.
Proof.
  intros x y Fx Fy d. exists (arctan2 (fval y) (fval x)). pose proof (arctan2_range (fval y) (fval x)) as A. pose proof PI_4 as P.
  assert (A4 : Rabs (arctan2 (fval y) (fval x)) <= 4) by (apply Rabs_le; lra). split; auto. split; [apply polar_cos|]. split; [apply polar_sin|].
  destruct (near_ref _ A4) as [F V]. split; auto. eapply Rle_trans; [exact V|]. destruct u_pows as [U _]. rewrite U. pose proof eta_small. pose proof u_pos. pose proof u_small.
  change (B (-53)) with u.
  (* pi is below 3.2 *)
  assert (P3 : PI <= 3 + / 2).
  { pose proof PI_ineq 1 as [_ H']. cbn in H'. unfold tg_alt, PI_tg in H'. cbn in H'. lra. }
  assert (A3 : Rabs (arctan2 (fval y) (fval x)) <= 3 + / 2) by (apply Rabs_le; lra). nra.
Qed.
Lemma trig_ref_ok : trig_ok cos_ref cos /\ trig_ok sin_ref sin.
Proof.
  assert (G : forall v, -1 <= v <= 1 -> is_finite (of_R v) = true /\ Rabs (fval (of_R v) - v) <= B (-52)).
  { intros v Hv. assert (A1 : Rabs v <= 1) by (apply Rabs_le; lra). destruct (near_ref v ltac:(lra)) as [F V]. split; auto. eapply Rle_trans; [exact V|].
    destruct u_pows as [_ U]. rewrite U. pose proof eta_small. pose proof u_pos. pose proof u_small. change (B (-53)) with u. nra. }
  split; intros t Ft Ht; apply G; [apply COS_bound|apply SIN_bound].
Qed.
Lemma fofZ_big z : Rabs (rnd64 (IZR z)) < B 1024 -> fval (fofZ z) = rnd64 (IZR z) /\ is_finite (fofZ z) = true.
Proof.
  intros H. pose proof (binary_normalize_correct prec emax Hprec Hmax mode_NE z 0 false) as C.
  assert (E : F2R (Float radix2 z 0) = IZR z) by (unfold F2R; cbn; ring). rewrite E in C. cbn [round_mode] in C.
  change (SpecFloat.fexp prec emax) with flt_exp in C. rewrite Rlt_bool_true in C by exact H. destruct C as (C1 & C2 & _). auto.
Qed.
Lemma gamma_ref_near : gamma_near gamma_ref.
Proof.
  split; intros z Hz.
  - unfold gamma_ref. rewrite (proj2 (Z.leb_le z 171)) by lia. rewrite zfact_fprod. set (f := fprod (Z.to_nat (z - 1))).
    assert (F1 : (1 <= f <= fprod 170)%Z).
    { assert (Mn : forall k, (1 <= fprod k)%Z) by (intros k; rewrite fprod_fact; pose proof (lt_O_fact k); lia). split; [apply Mn|].
      unfold f. rewrite !fprod_fact. apply inj_le. apply fact_le. lia. }
    assert (Bz : (fprod 170 <= 2 ^ 1023)%Z) by (vm_compute; discriminate).
    assert (R1 : 1 <= IZR f <= B 1023) by (split; [apply IZR_le; lia|]; change (B 1023) with (IZR (2 ^ 1023)); apply IZR_le; lia).
    destruct (fofZ_big f) as [V F]; [apply (rnd_small _ 1023); [lia|rewrite Rabs_right; lra]|]. split; auto. rewrite V.
    eapply Rle_trans; [apply rnd_u|]. rewrite Rabs_right by lra. pose proof u_pos as U0. pose proof u_small as U1.
    assert (u * u <= u * IZR f) by (apply Rmult_le_compat_l; lra).
    assert (2 * u <= B (-30)) by (unfold u; replace (2 * B (-53)) with (B (1 + -53)) by (rewrite bpow_plus; reflexivity); apply bpow_le; lia).
    assert (2 * u * IZR f <= B (-30) * IZR f) by (apply Rmult_le_compat_r; lra). lra.
  - unfold gamma_ref. rewrite (proj2 (Z.leb_gt z 171)) by lia. reflexivity.
Qed.

(** Mode 1276, of orders (50, 0), at the edge of the pupil. *)
Lemma hypot_one : hypot_ref (fofZ 1) fzero = fofZ 1.
Proof.
  destruct (fofZ_spec 1 ltac:(lia)) as [V F]. assert (E : sqrt (fval (fofZ 1) * fval (fofZ 1) + fval fzero * fval fzero) = 1).
  { rewrite V. change (fval fzero) with 0. replace (1 * 1 + 0 * 0) with 1 by ring. apply sqrt_1. }
  unfold hypot_ref. rewrite E. destruct (of_R_spec 1) as [V' F']; [apply small_1000; rewrite Rabs_R1; lra|]. rewrite (rnd_IZR 1) in V' by lia.
  apply fin_eq; auto; rewrite V'; [symmetry; exact V|lra].
Qed.
Definition edge_x : arr f64 := Arr 1 1 (fun _ _ => fofZ 1).
Definition edge_y : arr f64 := Arr 1 1 (fun _ _ => fzero).
Definition edge_value : f64 := fmul (norm_f 50 0) (fmul (radial_value_f gamma_ref 50 50 0 (fdiv (fofZ 1) (fofZ 1))) (fadd fzero (fofZ 1))).
Lemma edge_far : is_finite edge_value = true /\ 300 <= fval edge_value.
Proof.
  assert (H : (match B2SF edge_value with SpecFloat.S754_finite false p e => (e <? 0)%Z && (300 * 2 ^ (- e) <=? Zpos p)%Z | _ => false end) = true) by (vm_compute; reflexivity).
  revert H. generalize edge_value. intros v H. destruct v as [s|s| |s p e Hb]; try discriminate. cbn [B2SF] in H. destruct s; [discriminate|]. split; auto.
  apply andb_prop in H. destruct H as [H1 H2]. apply Z.ltb_lt in H1. apply Z.leb_le in H2. unfold fval. cbn [B2R]. unfold F2R. cbn [Fnum Fexp cond_Zopp].
  apply IZR_le in H2. rewrite mult_IZR in H2. change 2%Z with (radix_val radix2) in H2. rewrite IZR_Zpower in H2 by lia.
  apply Rmult_le_reg_r with (B (- e)); [apply bpow_gt_0|]. rewrite Rmult_assoc, <- bpow_plus. replace (e + - e)%Z with 0%Z by lia. cbn [bpow]. lra.
Qed.
Lemma edge_index : noll_index 1276 50 0.
Proof. split; [lia|]. split; [exists 25%Z; lia|]. left. split; reflexivity. Qed.
Lemma edge_usable : usable_orders [1276%Z].
Proof. split; [discriminate|]. intros j [<-|[]]. lia. Qed.
Lemma one_positive : fle (fofZ 1) fzero = false. Proof. vm_compute. reflexivity. Qed.
Lemma edge_orders : noll_n 1276 = 50%Z /\ noll_m 1276 = 0%Z.
Proof. apply noll_decode_iff; [lia|]. exact edge_index. Qed.
Lemma edge_mode : zern_value_f hypot_ref atan2_ref cos_ref sin_ref gamma_ref 50 0 (fofZ 1) 1276 50 0 (fofZ 1) fzero = edge_value.
Proof.
  unfold zern_value_f, edge_value. cbv zeta. rewrite hypot_one. destruct (sincos_table_f_eq cos_ref sin_ref 0 (atan2_ref fzero (fofZ 1)) 0 ltac:(lia)) as [E _]. rewrite Z.eqb_refl in E.
  change (1276 mod 2 =? 0)%Z with true. cbv iota. rewrite E. reflexivity.
Qed.
Lemma edge_max : max_n [1276%Z] = 50%Z /\ max_m [1276%Z] = 0%Z.
Proof. destruct edge_orders as [En Em]. unfold max_n, max_m, zmax_list. cbn [map fold_right]. rewrite En, Em. split; reflexivity. Qed.
Lemma edge_wrong : exists a, xyzern_f hypot_ref atan2_ref cos_ref sin_ref gamma_ref edge_x edge_y (fofZ 1) [1276%Z] = Ok [a] /\
  polar_of (fval (at2 edge_x 0 0)) (fval (at2 edge_y 0 0)) 1 0 /\ is_finite (at2 a 0 0) = true /\
  200 < fval (at2 a 0 0) - noll_zernike 1276 50 0 (1 / fval (fofZ 1)) 0.
Proof.
  destruct edge_orders as [En Em]. destruct edge_max as [Mn Mm]. destruct (fofZ_spec 1 ltac:(lia)) as [V F].
  exists (amap2 (zern_value_f hypot_ref atan2_ref cos_ref sin_ref gamma_ref 50 0 (fofZ 1) 1276 50 0) edge_x edge_y).
  split.
  { rewrite xyzern_f_eq; [|apply edge_usable|apply one_positive|reflexivity|reflexivity]. cbn [map]. rewrite Mn, Mm, En, Em. reflexivity. }
  split.
  { cbn [at2 edge_x edge_y]. rewrite V. change (fval fzero) with 0. pose proof PI_RGT_0. unfold polar_of. rewrite cos_0, sin_0. repeat split; lra. }
  assert (E : at2 (amap2 (zern_value_f hypot_ref atan2_ref cos_ref sin_ref gamma_ref 50 0 (fofZ 1) 1276 50 0) edge_x edge_y) 0 0 = edge_value) by exact edge_mode.
  rewrite E. destruct edge_far as [F1 V1]. split; [exact F1|]. clear E. revert V1. generalize (fval edge_value). intros w V1.
  unfold noll_zernike. cbn [Z.eqb]. replace (1 / fval (fofZ 1)) with 1 by (rewrite V; field).
  rewrite radial_one by (try lia; exists 25%Z; lia). assert (sqrt (50 + 1) <= 8).
  { rewrite <- (sqrt_square 8) by lra. apply sqrt_le_1_alt. lra. }
  lra.
Qed.
