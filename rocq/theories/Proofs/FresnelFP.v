(** Rounding errors of the Fresnel phase factor, and its sampling criterion. *)
From Coq Require Import ZArith Reals Bool List Lia Lra Psatz String.
From Coquelicot Require Import Complex.
From Flocq Require Import Core BinarySingleNaN Relative.
From Verif.Base Require Import Py F64 Arr Vec Sums CSum.
From Verif.Model Require Import Math ShapesG MftF FresnelF.
From Verif.Spec Require Import MftFSpec NollFSpec FresnelSpec FresnelFSpec RefuseSpec.
From Verif.Proofs Require Import RefuseP F64P F64N PiP ShapesGA NollFP MathP MftFP MftFQ MftFR.
Import ListNotations.
Local Open Scope R_scope.
Local Notation B := (bpow radix2).
Local Notation u := NollFP.u.

Lemma near_exact x k m : is_finite x = true -> (fval x = 0 \/ B (- k) <= Rabs (fval x)) -> Rabs (fval x) <= B m -> near 0 k m x (fval x).
Proof. intros F L U. split; auto. split; [rewrite Rminus_diag_eq, Rabs_R0 by reflexivity; lra|auto]. Qed.
Lemma near_usable p : usable_sampling p -> 0 < fval p /\ near 0 100 100 p (fval p).
Proof.
  intros (F & L & U). pose proof (bpow_gt_0 radix2 (-100)). split; [lra|]. apply near_exact; auto; rewrite Rabs_right by lra; auto.
Qed.
Lemma tiny_le x : 1 <= x -> B (-1074) <= / 100 * u * x.
Proof.
  intros H. pose proof u_pos. assert (B (-1074) <= / 100 * u); [|nra]. unfold u. apply Rle_trans with (B (-7) * B (-53)); [rewrite <- bpow_plus; apply bpow_le; lia|].
  apply Rmult_le_compat_r; [apply bpow_ge_0|]. change (B (-7)) with (/ 128). lra.
Qed.

(** ** The sampling criterion *)
Lemma abs_f z : is_finite z = true -> is_finite (Babs z : f64) = true /\ fval (Babs z) = Rabs (fval z).
Proof. intros F. split; [rewrite is_finite_Babs; exact F|apply B2R_Babs]. Qed.
Lemma pow2_near pw x : pow2_ok pw -> usable_sampling x -> exists p, pw x = Some p /\ near (201 / 100) 200 200 p (fval x ^ 2).
Proof.
  intros H Hx. destruct (near_usable x Hx) as [P (F & _ & L & U)]. rewrite (Rabs_right (fval x)) in * by lra. destruct L as [L|L]; [lra|]. change (- (100))%Z with (-100)%Z in L.
  destruct (H x F) as (p & E & Fp & Ep). { rewrite Rabs_right by lra. eapply Rle_trans; [exact U|apply bpow_le; lia]. }
  assert (L2 : B (-200) <= fval x ^ 2) by (change (-200)%Z with (-100 + -100)%Z; rewrite bpow_plus; cbn [pow]; rewrite Rmult_1_r; apply Rmult_le_compat; auto; apply bpow_ge_0).
  assert (U2 : fval x ^ 2 <= B 200) by (change 200%Z with (100 + 100)%Z; rewrite bpow_plus; cbn [pow]; rewrite Rmult_1_r; apply Rmult_le_compat; lra).
  pose proof (pow2_ge_0 (fval x)) as Q. exists p. split; auto. split; auto. rewrite (Rabs_right (fval x ^ 2)) by lra. split; [|split; auto].
  eapply Rle_trans; [exact Ep|]. rewrite (upow 1 (-52)) by reflexivity.
  assert (B (-1074) <= / 100 * u * fval x ^ 2); [|lra].
  apply Rle_trans with (B (-7) * B (-53) * B (-200)); [rewrite <- !bpow_plus; apply bpow_le; lia|]. unfold u.
  apply Rmult_le_compat; auto; try apply bpow_ge_0; [apply Rmult_le_pos; apply bpow_ge_0|]. apply Rmult_le_compat_r; [apply bpow_ge_0|]. change (B (-7)) with (/ 128). lra.
Qed.
Lemma spread_near pw lam z ppm : pow2_ok pw -> usable_sampling lam -> usable_distance z -> usable_sampling ppm ->
  exists p, pw ppm = Some p /\ near (404 / 100) 400 400 (fmul (fmul lam (Babs z)) p) (points_needed (fval lam) (fval z) (fval ppm)).
Proof.
  intros Hp Hl [Fz Hz] Hq. destruct (pow2_near pw ppm Hp Hq) as (p & E & Np). exists p. split; auto. destruct (near_usable _ Hl) as [_ Nl].
  destruct (abs_f z Fz) as [Fa Va].
  assert (Na : near 0 100 100 (Babs z) (Rabs (fval z))).
  { rewrite <- Va. apply near_exact; auto; rewrite Va, ?Rabs_Rabsolu; [destruct Hz as [->|Hz]; [left; apply Rabs_R0|right; apply Hz]|].
    destruct Hz as [->|Hz]; [rewrite Rabs_R0; apply bpow_ge_0|apply Hz]. }
  destruct (near_mul _ _ (102 / 100) _ _ _ _ _ _ _ _ Nl Na) as [N1 _]; try lra; try lia.
  destruct (near_mul _ _ (404 / 100) _ _ _ _ _ _ _ _ N1 Np) as [N2 _]; try lra; try lia. exact N2.
Qed.
Lemma ceil_lt n x : (n < Zceil x)%Z <-> IZR n < x.
Proof.
  split; intros H.
  - apply Rnot_le_lt. intros L. apply Zceil_glb in L. lia.
  - destruct (Z_lt_le_dec n (Zceil x)); auto. pose proof (Zceil_ub x). apply IZR_le in l. lra.
Qed.
Lemma int_ceil x : is_finite x = true -> int_of_float (fceil x) = Ok (Zceil (fval x)).
Proof. intros F. destruct (fceil_spec x) as [V F']. apply int_of_float_IZR; congruence. Qed.

Section Lib.
Variables (pw : f64 -> option f64) (h : f64 -> f64 -> f64) (ex : c128 -> c128).

Lemma get_fp_unfold lam z nx ppm p : fle lam fzero = false -> fle ppm fzero = false -> (0 < nx)%Z -> pw ppm = Some p -> let x := fmul (fmul lam (Babs z)) p in is_finite x = true ->
  get_fp_f pw h ex lam z nx ppm = if Rlt_dec (IZR nx) (fval x) then Err ValueError else Ok (fp_array_f h ex lam z nx ppm).
Proof.
  intros L P N E x F. unfold get_fp_f, n_samples_min_f. rewrite L, P, E. cbn [negb guard bind]. destruct (Z.ltb_spec 0 nx); [|lia]. cbn [guard bind]. fold x. rewrite (int_ceil x F). cbn [bind].
  destruct (Rlt_dec (IZR nx) (fval x)) as [Q|Q]; rewrite <- ceil_lt in Q; destruct (Z.ltb_spec nx (Zceil (fval x))); try lia; reflexivity.
Qed.
Lemma usable_fle p : usable_sampling p -> fle p fzero = false.
Proof. intros H. destruct (near_usable p H) as [P _]. rewrite fle_val; [apply Rle_bool_false; exact P|apply H|reflexivity]. Qed.

Hypotheses (Hpw : pow2_ok pw) (Hh : hypot_ok h) (Hh0 : hypot_zero h) (Hex : cexp_ok ex).

Lemma get_fp_decides lam z nx ppm : usable_sampling lam -> usable_distance z -> usable_sampling ppm -> (0 < nx)%Z ->
  exists x, Rabs (x - points_needed (fval lam) (fval z) (fval ppm)) <= B (-50) * points_needed (fval lam) (fval z) (fval ppm) /\
  get_fp_f pw h ex lam z nx ppm = if Rlt_dec (IZR nx) x then Err ValueError else Ok (fp_array_f h ex lam z nx ppm).
Proof.
  intros Hl Hz Hq Hn. destruct (spread_near pw lam z ppm Hpw Hl Hz Hq) as (p & E & N). exists (fval (fmul (fmul lam (Babs z)) p)). split.
  - destruct N as (_ & N & _). assert (P0 : 0 <= points_needed (fval lam) (fval z) (fval ppm)).
    { unfold points_needed. apply Rmult_le_pos; [apply Rmult_le_pos; [destruct (near_usable _ Hl); lra|apply Rabs_pos]|apply pow2_ge_0]. }
    rewrite (Rabs_right (points_needed _ _ _)) in N by lra. rewrite (upow 3 (-50)) by reflexivity. pose proof u_pos. eapply Rle_trans; [exact N|]. apply Rmult_le_compat_r; lra.
  - apply get_fp_unfold; auto using usable_fle. apply N.
Qed.
Lemma sampling lam z nx ppm : usable_sampling lam -> usable_distance z -> usable_sampling ppm -> (0 < nx)%Z ->
  let X := points_needed (fval lam) (fval z) (fval ppm) in
  (X * (1 + B (-50)) <= IZR nx -> exists fp, get_fp_f pw h ex lam z nx ppm = Ok fp) /\
  (IZR nx < X * (1 - B (-50)) -> get_fp_f pw h ex lam z nx ppm = Err ValueError).
Proof.
  intros Hl Hz Hq Hn X. destruct (get_fp_decides lam z nx ppm Hl Hz Hq Hn) as (x & A & E). fold X in A. apply Rabs_le_inv in A. rewrite E. split; intros Q; destruct (Rlt_dec (IZR nx) x); try lra; eauto.
Qed.

(** ** The phase factor *)
Lemma near_hypot k l : (Z.abs k <= 2 ^ 20)%Z -> (Z.abs l <= 2 ^ 20)%Z -> near (201 / 100) 0 21 (h (fofZ k) (fofZ l)) (sqrt (IZR k * IZR k + IZR l * IZR l)).
Proof.
  intros Hk Hl. destruct (near_int k Hk) as (Fk & Ek & _ & Uk). destruct (near_int l Hl) as (Fl & El & _ & Ul). pose proof u_pos as U0.
  rewrite !Rmult_0_l in Ek, El. assert (Vk : fval (fofZ k) = IZR k) by (apply fofZ_spec; lia). assert (Vl : fval (fofZ l) = IZR l) by (apply fofZ_spec; lia).
  destruct (Hh (fofZ k) (fofZ l) Fk Fl) as [F E]; [rewrite Vk; eapply Rle_trans; [exact Uk|apply bpow_le; lia]|rewrite Vl; eapply Rle_trans; [exact Ul|apply bpow_le; lia]|].
  rewrite Vk, Vl in E. set (d := sqrt _) in *. split; [exact F|]. assert (D0 : 0 <= d) by apply sqrt_pos. rewrite (Rabs_right d) by lra.
  assert (Ud : d <= B 21).
  { unfold d. rewrite <- (sqrt_Rsqr (B 21)) by apply bpow_ge_0. apply sqrt_le_1_alt. unfold Rsqr. change (B 21) with (2 * B 20)%R. change (B 20) with (IZR (2 ^ 20)) in *. apply Rabs_le_inv in Uk, Ul. nra. }
  destruct (Z.eq_dec (k * k + l * l) 0) as [Z|N].
  - assert (k = 0 /\ l = 0)%Z as [-> ->] by nia. rewrite Hh0. replace d with 0 in * by (unfold d; rewrite !Rmult_0_l, Rplus_0_l, sqrt_0; reflexivity).
    split; [rewrite Rminus_0_r, Rabs_R0; lra|]. split; auto.
  - assert (D1 : 1 <= d). { unfold d. rewrite <- sqrt_1. apply sqrt_le_1_alt. rewrite <- !mult_IZR, <- plus_IZR. apply IZR_le. nia. }
    split; [|split; [right; exact D1|exact Ud]]. eapply Rle_trans; [exact E|]. rewrite (upow 1 (-52)) by reflexivity. pose proof (tiny_le d D1). lra.
Qed.
Lemma near_ratio p n : usable_sampling p -> (0 < n <= 2 ^ 20)%Z -> near (101 / 100) 120 100 (fdiv p (fofZ n)) (fval p / IZR n).
Proof.
  intros Hp Hn. destruct (near_usable p Hp) as [P (Fp & _ & [L|L] & U)]; [lra|]. change (- (100))%Z with (-100)%Z in L. rewrite (Rabs_right (fval p)) in * by lra.
  destruct (fofZ_spec n) as [Vn Fn]; [lia|]. assert (N1 : 1 <= IZR n) by (apply IZR_le; lia). assert (N2 : IZR n <= B 20) by (change (B 20) with (IZR (2 ^ 20)); apply IZR_le; lia).
  pose proof u_pos as U0. assert (I0 : 0 < / IZR n) by (apply Rinv_0_lt_compat; lra).
  assert (I1 : B (-20) <= / IZR n) by (assert (I : B (-20) = / B 20) by exact (bpow_opp radix2 20); rewrite I; apply Rinv_le_contravar; lra).
  assert (I2 : / IZR n <= 1) by (rewrite <- Rinv_1; apply Rinv_le_contravar; lra).
  assert (Q0 : 0 < fval p / IZR n) by (apply Rdiv_lt_0_compat; lra).
  assert (Q1 : B (-120) <= fval p / IZR n) by (change (-120)%Z with (-100 + -20)%Z; rewrite bpow_plus; apply Rmult_le_compat; auto; apply bpow_ge_0).
  assert (Q2 : fval p / IZR n <= B 100) by (unfold Rdiv; nra).
  destruct (near_rnd 0 120 100 (fval p / IZR n) (fval p / IZR n)) as [W1 W2]; try lra; try lia; [rewrite Rminus_diag_eq, Rabs_R0 by reflexivity; lra|right; change (- (120))%Z with (-120)%Z; rewrite Rabs_right; lra|rewrite Rabs_right; lra|].
  destruct (fdiv_spec p (fofZ n) Fp ltac:(lra)) as [V F]; [rewrite Vn; exact W1|]. rewrite Vn in V. split; auto. rewrite V.
  rewrite (Rabs_right (fval p / IZR n)) in * by lra. split; [eapply Rle_trans; [exact W2|]; apply Rmult_le_compat_r; [lra|]; apply Rmult_le_compat_r; lra|]. split; auto.
Qed.
Lemma minus_ipi : let c := cmul (fopp fzero, fopp (fofZ 1)) (cofF fpi) in cfin c /\ fval (fst c) = 0 /\ near (67 / 100) 0 2 (snd c) (- PI).
Proof.
  intros c. assert (S1 : B2SF (fst c) = SpecFloat.S754_zero false) by (vm_compute; reflexivity). assert (S2 : B2SF (snd c) = B2SF (fopp fpi)) by (vm_compute; reflexivity).
  assert (Fp : is_finite fpi = true) by reflexivity. assert (F2 : is_finite (snd c) = true) by (rewrite <- is_finite_SF_B2SF, S2; reflexivity).
  split; [split; auto; rewrite <- is_finite_SF_B2SF, S1; reflexivity|]. split; [unfold fval; rewrite <- SF2R_B2SF, S1; reflexivity|].
  assert (V : fval (snd c) = - fval fpi) by (unfold fval; rewrite <- SF2R_B2SF, S2, SF2R_B2SF; apply B2R_Bopp).
  destruct fpi_near as [N _]. pose proof pi_bounds as P. pose proof u_small as Us. pose proof u_pos as U0. rewrite (upow 1 (-52)) in N by reflexivity.
  split; auto. rewrite Rabs_Ropp, (Rabs_right PI) by lra. rewrite V. replace (- fval fpi - - PI) with (- (fval fpi - PI)) by ring. rewrite Rabs_Ropp. change (B (-0)) with 1. change (B 2) with 4.
  split; [nra|]. split; [right|]; lra.
Qed.
Lemma coeff_near lam z : usable_sampling lam -> usable_distance z -> let c := minus_i_pi lam z in
  cfin c /\ fval (fst c) = 0 /\ near (271 / 100) 200 202 (snd c) (- PI * fval lam * fval z).
Proof.
  intros Hl [Fz Hz] c. destruct (near_usable _ Hl) as [_ Nl].
  assert (Nz : near 0 100 100 z (fval z)). { apply near_exact; auto; [tauto|]. destruct Hz as [->|Hz]; [rewrite Rabs_R0; apply bpow_ge_0|apply Hz]. }
  destruct minus_ipi as (F0 & Z0 & N0). unfold c, minus_i_pi. set (c0 := cmul (fopp fzero, fopp (fofZ 1)) (cofF fpi)) in *.
  destruct (near_mul _ _ (169 / 100) _ _ _ _ _ _ _ _ N0 Nl) as [N1 _]; try lra; try lia.
  destruct (imag_mul c0 lam F0 Z0 (proj1 Nl) (proj1 N1)) as (F1 & Z1 & V1). set (c1 := cmul c0 (cofF lam)) in *.
  assert (N1' : near (169 / 100) (0 + 100) (2 + 100) (snd c1) (- PI * fval lam)) by (destruct N1 as (_ & N1); split; [apply F1|rewrite V1; exact N1]).
  destruct (near_mul _ _ (271 / 100) _ _ _ _ _ _ _ _ N1' Nz) as [N2 _]; try lra; try lia.
  destruct (imag_mul c1 z F1 Z1 Fz (proj1 N2)) as (F2 & Z2 & V2). split; auto. split; auto. destruct N2 as (_ & N2). split; [apply F2|]. rewrite V2. exact N2.
Qed.
Lemma entry_near lam z nx ppm r c : usable_sampling lam -> usable_distance z -> usable_sampling ppm -> (0 < nx <= 2 ^ 20)%Z -> (0 <= r < nx)%Z -> (0 <= c < nx)%Z ->
  phase_size (fval lam) (fval z) (fval ppm) nx r c <= B 30 ->
  let w := at2 (fp_array_f h ex lam z nx ppm) r c in
  cfin w /\ Cmod (cval w - fresnel_transfer (fval lam) (fval z) (fval ppm) nx r c)%C <= B (-49) * phase_size (fval lam) (fval z) (fval ppm) nx r c + B (-51).
Proof.
  intros Hl Hz Hp Hn Hr Hc Hs w. unfold fp_array_f in w. cbn [at2] in w.
  assert (Hk : (Z.abs (c - nx / 2) <= 2 ^ 20)%Z) by (pose proof (Z.div_le_upper_bound nx 2 nx ltac:(lia) ltac:(lia)); pose proof (Z.div_pos nx 2 ltac:(lia) ltac:(lia)); lia).
  assert (Hl' : (Z.abs (r - nx / 2) <= 2 ^ 20)%Z) by (pose proof (Z.div_le_upper_bound nx 2 nx ltac:(lia) ltac:(lia)); pose proof (Z.div_pos nx 2 ltac:(lia) ltac:(lia)); lia).
  pose proof (near_hypot _ _ Hk Hl') as Nh. pose proof (near_ratio ppm nx Hp Hn) as Nr. pose proof u_small as Us. pose proof u_pos as U0.
  destruct (near_mul _ _ (404 / 100) _ _ _ _ _ _ _ _ Nh Nr) as [Nt _]; try lra; try lia.
  destruct (near_mul _ _ (910 / 100) _ _ _ _ _ _ _ _ Nt Nt) as [Ntt _]; try lra; try lia.
  destruct (coeff_near lam z Hl Hz) as (Fc & Zc & Nc).
  destruct (near_mul _ _ (1283 / 100) _ _ _ _ _ _ _ _ Nc Ntt) as [Na _]; try lra; try lia.
  destruct (imag_mul _ _ Fc Zc (proj1 Ntt) (proj1 Na)) as (Fa & Za & Va). set (a := cmul (minus_i_pi lam z) _) in *.
  destruct Na as (_ & Em & _). rewrite <- Va in Em. change w with (ex a). clear w.
  set (X := - PI * fval lam * fval z * _) in Em. set (ph := phase_size _ _ _ nx r c) in *.
  assert (NX : IZR nx <> 0) by (apply IZR_neq; lia).
  assert (EX : X = - (PI * fval lam * fval z * ((IZR (c - nx / 2) * fval ppm / IZR nx) ^ 2 + (IZR (r - nx / 2) * fval ppm / IZR nx) ^ 2))).
  { unfold X. set (k := IZR (c - nx / 2)). set (l := IZR (r - nx / 2)). replace (sqrt (k * k + l * l) * (fval ppm / IZR nx) * (sqrt (k * k + l * l) * (fval ppm / IZR nx)))
      with (sqrt (k * k + l * l) * sqrt (k * k + l * l) * (fval ppm / IZR nx) ^ 2) by ring. rewrite sqrt_sqrt by nra. field. auto. }
  assert (AX : Rabs X = ph).
  { rewrite EX, Rabs_Ropp. unfold ph, phase_size. rewrite !Rabs_mult. pose proof pi_bounds. destruct (near_usable _ Hl) as [Pl _]. rewrite (Rabs_right PI), (Rabs_right (fval lam)) by lra. f_equal.
    apply Rabs_right. apply Rle_ge. apply Rplus_le_le_0_compat; apply pow2_ge_0. }
  rewrite AX in Em. assert (P0 : 0 <= ph) by (rewrite <- AX; apply Rabs_pos).
  destruct (Hex a Fa Za) as [Fz Ez].
  { replace (fval (snd a)) with (fval (snd a) - X + X) by ring. eapply Rle_trans; [apply Rabs_triang|]. rewrite AX.
    assert (1283 / 100 * u * ph <= 1 * ph) by (apply Rmult_le_compat_r; lra). apply Rle_trans with (2 * B 30); [lra|]. change (2 * B 30) with (B 1 * B 30). rewrite <- bpow_plus. apply bpow_le. lia. }
  split; [exact Fz|]. unfold fresnel_transfer. rewrite <- EX. eapply Rle_trans; [apply (Cmod_sub_le _ (cis (fval (snd a))))|]. pose proof (cis_lip (fval (snd a)) X) as L.
  eapply Rle_trans; [apply Rplus_le_compat; [exact Ez|exact L]|]. rewrite (upow 4 (-49)) by reflexivity.
  assert (1283 / 100 * u * ph <= 2 ^ 4 * u * ph) by (apply Rmult_le_compat_r; lra). lra.
Qed.
(** The criterion bounds the phase. *)
Lemma phase_le lam z ppm n k l X : (0 < n)%Z -> (0 <= k < n)%Z -> (0 <= l < n)%Z -> points_needed lam z ppm <= X -> 0 <= lam -> phase_size lam z ppm n k l <= PI / 2 * X.
Proof.
  intros Hn Hk Hl HX H0. unfold phase_size, points_needed in *. pose proof pi_bounds as P.
  assert (N0 : 0 < IZR n) by (apply IZR_lt; lia).
  assert (T : forall i, (0 <= i < n)%Z -> (IZR (i - n / 2) * ppm / IZR n) ^ 2 <= / 4 * ppm ^ 2).
  { intros i Hi. replace ((IZR (i - n / 2) * ppm / IZR n) ^ 2) with ((IZR (i - n / 2) / IZR n) ^ 2 * ppm ^ 2) by (field; lra). apply Rmult_le_compat_r; [apply pow2_ge_0|].
    assert (Rabs (IZR (i - n / 2) / IZR n) <= / 2).
    { unfold Rdiv. rewrite Rabs_mult, (Rabs_right (/ IZR n)) by (apply Rle_ge; left; apply Rinv_0_lt_compat; lra). apply Rmult_le_reg_r with (IZR n); auto. rewrite Rmult_assoc, Rinv_l, Rmult_1_r by lra.
      rewrite <- abs_IZR. assert (2 * Z.abs (i - n / 2) <= n)%Z by (pose proof (Z.div_mod n 2 ltac:(lia)); pose proof (Z.mod_pos_bound n 2 ltac:(lia)); lia). apply IZR_le in H. rewrite mult_IZR in H. lra. }
    apply Rabs_le_inv in H. nra. }
  pose proof (T k Hk). pose proof (T l Hl). assert (Q : 0 <= PI * lam * Rabs z) by (apply Rmult_le_pos; [apply Rmult_le_pos; lra|apply Rabs_pos]).
  apply Rle_trans with (PI * lam * Rabs z * (/ 4 * ppm ^ 2 + / 4 * ppm ^ 2)); [apply Rmult_le_compat_l; lra|].
  apply Rle_trans with (PI / 2 * (lam * Rabs z * ppm ^ 2)); [right; field|apply Rmult_le_compat_l; lra].
Qed.
Lemma transfer lam z nx ppm fp : usable_sampling lam -> usable_distance z -> usable_sampling ppm -> (nx <= 2 ^ 20)%Z -> get_fp_f pw h ex lam z nx ppm = Ok fp ->
  nr fp = nx /\ nc fp = nx /\ forall k l, (0 <= k < nx)%Z -> (0 <= l < nx)%Z ->
  cfin (at2 fp k l) /\ Cmod (cval (at2 fp k l) - fresnel_transfer (fval lam) (fval z) (fval ppm) nx k l)%C <= B (-49) * phase_size (fval lam) (fval z) (fval ppm) nx k l + B (-51).
Proof.
  intros Hl Hz Hp Hn E. assert (N0 : (0 < nx)%Z).
  { unfold get_fp_f in E. rewrite (usable_fle _ Hl) in E. cbn [negb guard bind] in E. destruct (Z.ltb_spec 0 nx); [auto|discriminate]. }
  destruct (get_fp_decides lam z nx ppm Hl Hz Hp N0) as (x & A & E'). rewrite E in E'. destruct (Rlt_dec (IZR nx) x) as [|Q]; [discriminate|]. injection E' as ->. cbn [nr nc]. split; auto. split; auto.
  intros k l Hk Hl'. apply entry_near; auto. pose proof pi_bounds as P. destruct (near_usable _ Hl) as [L0 _].
  set (X := points_needed _ _ _) in *. apply Rabs_le_inv in A. assert (P0 : 0 <= X).
  { unfold X, points_needed. apply Rmult_le_pos; [apply Rmult_le_pos; [lra|apply Rabs_pos]|apply pow2_ge_0]. }
  assert (B50 : B (-50) <= / 2) by (apply (bpow_le radix2 (-50) (-1)); lia). assert (N2 : IZR nx <= B 20) by (change (B 20) with (IZR (2 ^ 20)); apply IZR_le; lia).
  eapply Rle_trans; [apply (phase_le _ _ _ nx k l X); auto; first [unfold X; lra|lra|lia]|].
  assert (X <= 2 * B 20) by nra. replace (B 30) with (1024 * B 20) by (change 1024 with (B 10); rewrite <- bpow_plus; reflexivity). pose proof (bpow_gt_0 radix2 20). nra.
Qed.
(** ** Refusals *)
Lemma get_fp_f_refused lam z nx ppm e : get_fp_f pw h ex lam z nx ppm = Err e <-> refused (get_fp_f_needs pw lam z nx ppm) e.
Proof using.
  unfold get_fp_f, get_fp_f_needs. apply check_step; [rewrite negb_true_iff; tauto|]. intros _. apply check_step; [apply Z.ltb_lt|]. intros _.
  apply check_step; [rewrite negb_true_iff; tauto|]. intros _. unfold n_samples_min_f. destruct (pw ppm) as [p|] eqn:E; cbn [bind].
  2: { rewrite refused_iff. split; [intros [= <-]; left; split; auto|]. intros [[_ ->]|[A _]]; [reflexivity|contradiction]. }
  set (x := fmul (fmul lam (Babs z)) p). rewrite refused_iff.
  assert (S : forall P : f64 -> Prop, (forall p', Some p = Some p' -> P (fmul (fmul lam (Babs z)) p')) <-> P x) by (intros P; split; [intros A; apply A; auto|intros A p' [= <-]; exact A]).
  rewrite refused_iff, (S (fun x => x <> B754_nan)), refused_iff, (S (fun x => forall s, x <> B754_infinity s)), refused_iff, (S (fun x => fval x <= IZR nx)), refused_nil.
  assert (T : (~ Some p <> None /\ e = Custom "OverflowError") <-> False) by (split; [intros [A _]; apply A; discriminate|tauto]). rewrite T. clear T S. clearbody x.
  destruct (is_finite x) eqn:F.
  - rewrite (int_ceil x F). cbn [bind]. assert (x <> B754_nan /\ forall s, x <> B754_infinity s) by (split; [|intros s]; intros ->; discriminate F).
    destruct (Z.ltb_spec nx (Zceil (fval x))) as [Q|Q]; cbn [negb guard bind].
    + apply ceil_lt in Q. assert (~ fval x <= IZR nx) by lra. split; [intros [= <-]|]; [|intros [[]|[_ [A|[_ [A|[_ [A|A]]]]]]]; try (destruct A; congruence); tauto]. right. split; [discriminate|]. tauto.
    + assert (fval x <= IZR nx) by (apply Rnot_lt_le; rewrite <- ceil_lt; lia). split; [discriminate|tauto].
  - destruct x as [s|s| |s m k W]; try discriminate F; cbn [fceil Bnearbyint int_of_float bind].
    + split; [intros [= <-]|]. { right. split; [discriminate|]. right. split; [discriminate|]. left. split; auto. intros A. apply (A s). reflexivity. }
      intros [[]|[_ [A|[_ [A|[A _]]]]]]; [destruct A as [A _]; exfalso; apply A; discriminate|destruct A; congruence|exfalso; apply (A s); reflexivity].
    + split; [intros [= <-]|]. { right. split; [discriminate|]. left. split; auto. }
      intros [[]|[_ [A|[A _]]]]; [destruct A; congruence|congruence].
Qed.
End Lib.
