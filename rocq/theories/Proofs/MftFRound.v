(** The inverse of the forward matrix Fourier transform at critical sampling, in double precision. *)
From Coq Require Import ZArith Reals Bool List Lia Lra.
From Coquelicot Require Import Complex.
From Flocq Require Import Core BinarySingleNaN.
From Verif.Base Require Import Py F64 Arr Vec Sums CSum.
From Verif.Model Require Import ShapesG Mft MftF.
From Verif.Spec Require Import FresnelSpec MftSpec MftFSpec.
From Verif.Proofs Require Import MftP MftFP MftFQ MftFR MftFS.
Import ListNotations.
Local Open Scope R_scope.
Local Notation B := (bpow radix2).

Lemma Cmod_csum2 f n m : Cmod (csum2 f n m) <= rsum2 (fun i j => Cmod (f i j)) n m.
Proof. unfold csum2, rsum2. apply Rle_trans with (1 := Cmod_csum _ _). apply rsum_le. intros i _. apply Cmod_csum. Qed.
Lemma Cmod_RtoC_pos x : 0 <= x -> Cmod (RtoC x) = x.
Proof. intros H. rewrite Cmod_R. apply Rabs_pos_eq, H. Qed.
Lemma fourier_size s e din dout h w a b : 0 < din -> Cmod (fourier_sum s e din dout h w a b) <= rsum2 (fun i j => Cmod (at2 e i j)) (nr e) (nc e) / din ^ 2.
Proof.
  intros Hd. unfold fourier_sum. assert (0 < / din ^ 2) by (apply Rinv_0_lt_compat, pow_lt; auto).
  rewrite Cmod_mult, Cmod_RtoC_pos by lra. unfold Rdiv. apply Rmult_le_compat_r; [lra|]. apply Rle_trans with (1 := Cmod_csum2 _ _ _).
  apply rsum2_le. intros i j _ _. rewrite Cmod_mult, Cmod_cis. lra.
Qed.
Lemma fourier_lip s e e' din dout h w a b k : 0 < din -> (0 <= nr e)%Z -> (0 <= nc e)%Z -> nr e' = nr e -> nc e' = nc e ->
  (forall i j, (0 <= i < nr e)%Z -> (0 <= j < nc e)%Z -> Cmod (at2 e i j - at2 e' i j)%C <= k) ->
  Cmod (fourier_sum s e din dout h w a b - fourier_sum s e' din dout h w a b)%C <= IZR (nr e) * IZR (nc e) * k / din ^ 2.
Proof.
  intros Hd Hn Hm Q1 Q2 H.
  assert (L : (fourier_sum s e din dout h w a b - fourier_sum s e' din dout h w a b)%C = fourier_sum s (lin_comb 1 (Copp 1) e e') din dout h w a b).
  { rewrite fourier_lin by auto. ring. }
  rewrite L. apply Rle_trans with (1 := fourier_size _ _ _ _ _ _ _ _ Hd). assert (0 < / din ^ 2) by (apply Rinv_0_lt_compat, pow_lt; auto).
  unfold Rdiv. apply Rmult_le_compat_r; [lra|]. cbn [lin_comb nr nc at2]. rewrite <- rsum2_const by auto. apply rsum2_le. intros i j Hi Hj.
  replace (1 * at2 e i j + Copp 1 * at2 e' i j)%C with (at2 e i j - at2 e' i j)%C by ring. auto.
Qed.
(** C19 as an identity between sums. *)
Lemma inverse_sum e N p q : (0 < nr e)%Z -> (0 < nc e)%Z -> 0 < p -> 0 < q -> IZR N = q * p -> (nr e <= N)%Z -> (nc e <= N)%Z ->
  forall i j, (0 <= i < nr e)%Z -> (0 <= j < nc e)%Z ->
  fourier_sum 1 (Arr N N (fun u v => fourier_sum (-1) e p q N N u v)) q p (nr e) (nc e) i j = at2 e i j.
Proof.
  intros Hn Hm Hp Hq HN L1 L2 i j Hi Hj.
  destruct (do_mft_ok e N N q p) as (f & Ef & Rf & Cf & Vf); auto; try lia.
  destruct (imft_mft e N q p f) as (g & Eg & A); auto; [split; lia|].
  destruct (do_imft_ok f (nr e) (nc e) q p) as (g' & Eg' & _ & _ & Vg); auto; try (rewrite Rf || rewrite Cf; lia).
  assert (g' = g) by congruence. subst g'. destruct A as (A1 & A2 & A3). rewrite <- (A3 i j) by (split; lia). rewrite Vg.
  unfold fourier_sum at 1 3. rewrite Rf, Cf. cbn [nr nc at2]. f_equal. apply csum2_ext. intros u v _ _. rewrite Vf. reflexivity.
Qed.
Lemma turns_crit k n d p q N : 0 < p -> 0 < q -> IZR N = q * p -> (2 * Z.abs k <= n)%Z -> (0 <= d)%Z -> IZR (Z.abs k) / q * (IZR d / 2 / p) <= IZR n * IZR d / (4 * IZR N).
Proof.
  intros Hp Hq HN Hk Hd. rewrite HN. assert (2 * IZR (Z.abs k) <= IZR n) by (rewrite <- mult_IZR; apply IZR_le; auto). assert (0 <= IZR d) by (apply IZR_le; auto).
  replace (IZR (Z.abs k) / q * (IZR d / 2 / p)) with (2 * IZR (Z.abs k) * (IZR d / (4 * (q * p)))) by (field; lra).
  replace (IZR n * IZR d / (4 * (q * p))) with (IZR n * (IZR d / (4 * (q * p)))) by (field; lra). apply Rmult_le_compat_r; [|auto].
  apply Rmult_le_pos; [auto|]. left. apply Rinv_0_lt_compat. assert (0 < q * p) by (apply Rmult_lt_0_compat; auto). lra.
Qed.

Section Lib.
Variables (fcexp : c128 -> c128) (fdot : arr c128 -> arr c128 -> arr c128).
Hypotheses (Hexp : cexp_ok fcexp) (Hdot : dot_ok fdot).

Lemma round_trip e N ppl ppp : usable_field e -> total e <= B 200 -> usable_sampling ppl -> usable_sampling ppp -> IZR N = fval ppl * fval ppp ->
  (nr e <= N <= 2 ^ 20)%Z -> (nc e <= N)%Z ->
  exists f g, do_mft_f fcexp fdot e [N; N] ppl ppp = Ok f /\ do_imft_f fcexp fdot f [nr e; nc e] ppl ppp = Ok g /\ nr g = nr e /\ nc g = nc e /\
  forall i j, (0 <= i < nr e)%Z -> (0 <= j < nc e)%Z ->
  cfin (at2 g i j) /\ Cmod (cval (at2 g i j) - cval (at2 e i j))%C <= B (-45) * IZR N * total e + B (-400).
Proof.
  intros Ue HT Ul Up HN Ln Lm. pose proof (usable_pos _ Ul) as Pq. pose proof (usable_pos _ Up) as Pp. destruct Ue as (Hn & Hm & Hf & _).
  set (p := fval ppp) in *. set (q := fval ppl) in *. set (T := total e) in *.
  assert (T0 : 0 <= T) by (unfold T, total; apply rsum2_nonneg; intros; apply Cmod_ge_0).
  assert (N1 : 1 <= IZR N) by (apply IZR_le; lia). assert (N2 : IZR N <= B 20) by (change (B 20) with (IZR (2 ^ 20)); apply IZR_le; lia).
  assert (Ln' : IZR (nr e) <= IZR N) by (apply IZR_le; lia). assert (Lm' : IZR (nc e) <= IZR N) by (apply IZR_le; lia).
  assert (n0 : 0 < IZR (nr e)) by (apply IZR_lt; lia). assert (m0 : 0 < IZR (nc e)) by (apply IZR_lt; lia).
  assert (B30 : IZR N <= B 30) by (apply Rle_trans with (1 := N2); apply bpow_le; lia).
  set (K := 7 / 4 * B (-47)). assert (K0 : 0 < K) by (unfold K; pose proof (bpow_gt_0 radix2 (-47)); lra).
  assert (KN : K * IZR N <= B (-26)). { unfold K. assert (J : B (-26) = 2 * (B (-47) * B 20)) by (rewrite <- bpow_plus; cbn; lra). rewrite J. pose proof (bpow_gt_0 radix2 (-47)). nra. }
  assert (p2 : 0 < p ^ 2) by (apply pow_lt; auto). assert (q2 : 0 < q ^ 2) by (apply pow_lt; auto).
  set (X := T / p ^ 2). assert (X0 : 0 <= X) by (unfold X; apply Rmult_le_pos; [auto|left; apply Rinv_0_lt_compat; auto]).
  set (E1 := K * IZR N * X + B (-700)). pose proof (bpow_gt_0 radix2 (-700)) as b700.
  assert (KN00 : 0 <= K * IZR N) by (apply Rmult_le_pos; lra). assert (E10 : 0 <= E1) by (unfold E1; assert (0 <= K * IZR N * X) by (apply Rmult_le_pos; lra); lra).
  (* sizes *)
  assert (Pu : B (-200) <= p ^ 2 <= B 200).
  { destruct Up as (_ & L & U). fold p in L, U. assert (J : B (-200) = B (-100) * B (-100)) by (rewrite <- bpow_plus; reflexivity). assert (J' : B 200 = B 100 * B 100) by (rewrite <- bpow_plus; reflexivity).
    pose proof (bpow_gt_0 radix2 (-100)). rewrite J, J'. cbn [pow]. rewrite Rmult_1_r. split; apply Rmult_le_compat; lra. }
  assert (XB : X <= B 400). { unfold X. assert (J : B 400 = B 200 * B 200) by (rewrite <- bpow_plus; reflexivity). rewrite J. apply Rmult_le_compat; auto; [left; apply Rinv_0_lt_compat; auto|].
    assert (I : B 200 = / B (-200)) by exact (bpow_opp radix2 (-200)). rewrite I. apply Rinv_le; [apply bpow_gt_0|apply Pu]. }
  (* forward *)
  assert (Ue : usable_field e). { split; [auto|]. split; [auto|]. split; [auto|]. apply Rle_trans with (1 := HT). apply bpow_le. lia. }
  destruct (do_mft_f_near fcexp fdot Hexp Hdot e N N ppl ppp Ue ltac:(lia) ltac:(lia) Ul Up) as (f & Ef & Rf & Cf & Vf). fold p q in Vf.
  set (F := fun u v => fourier_sum (-1) (amap cval e) p q N N u v).
  assert (Qn : IZR N * IZR (nr e) / (4 * IZR N) = IZR (nr e) / 4) by (field; lra). assert (Qm : IZR N * IZR (nc e) / (4 * IZR N) = IZR (nc e) / 4) by (field; lra).
  assert (Qn' : IZR (nr e) * IZR N / (4 * IZR N) = IZR (nr e) / 4) by (field; lra). assert (Qm' : IZR (nc e) * IZR N / (4 * IZR N) = IZR (nc e) / 4) by (field; lra).
  assert (W1 : forall u v, (0 <= u < N)%Z -> (0 <= v < N)%Z -> cfin (at2 f u v) /\ Cmod (cval (at2 f u v) - F u v)%C <= E1).
  { intros u v Hu Hv. specialize (Vf u v Hu Hv). cbv zeta in Vf.
    assert (C1 : turns (u - N / 2) (nr e) p q <= IZR (nr e) / 4) by (rewrite <- Qn; apply turns_crit; auto; [|lia]; replace (u - N / 2)%Z with (- (N / 2) + u)%Z by ring; apply centred; auto).
    assert (C2 : turns (v - N / 2) (nc e) p q <= IZR (nc e) / 4) by (rewrite <- Qm; apply turns_crit; auto; [|lia]; replace (v - N / 2)%Z with (- (N / 2) + v)%Z by ring; apply centred; auto).
    destruct (Vf ltac:(lra) ltac:(lra)) as [Ff Df]. split; [auto|]. fold (F u v) in Df. fold T X in Df. apply Rle_trans with (1 := Df). unfold E1. apply Rplus_le_compat_r.
    apply Rmult_le_compat_r; [auto|]. rewrite plus_IZR. assert (J : B (-50) = / 8 * B (-47)) by (cbn; lra). rewrite J. unfold K. pose proof (bpow_gt_0 radix2 (-47)). nra. }
  (* size of the intermediate field *)
  assert (S0 : rsum2 (fun i j => Cmod (at2 (amap cval e) i j)) (nr (amap cval e)) (nc (amap cval e)) = T) by reflexivity.
  assert (TF : total f <= IZR N * IZR N * (X + E1)).
  { unfold total. rewrite Rf, Cf, <- rsum2_const by lia. apply rsum2_le. intros u v Hu Hv. destruct (W1 u v Hu Hv) as [_ D]. pose proof (Cmod_near (cval (at2 f u v)) (F u v)).
    pose proof (fourier_size (-1) (amap cval e) p q N N u v Pp) as Z0. fold (F u v) in Z0. rewrite S0 in Z0. fold X in Z0. lra. }
  assert (TF0 : 0 <= total f) by (unfold total; apply rsum2_nonneg; intros; apply Cmod_ge_0).
  assert (NN : IZR N * IZR N = q ^ 2 * p ^ 2) by (rewrite HN; ring).
  assert (b26 : B (-26) <= 1) by (change 1 with (B 0); apply bpow_le; lia).
  assert (b7 : B (-700) <= 1) by (change 1 with (B 0); apply bpow_le; lia). assert (b4 : 1 <= B 400) by (change 1 with (B 0); apply bpow_le; lia).
  assert (KX : K * IZR N * X <= X) by nra.
  assert (Uf : usable_field f).
  { split; [lia|]. split; [lia|]. split; [intros i j Hi Hj; apply W1; lia|]. apply Rle_trans with (1 := TF). apply Rle_trans with (B 40 * (B 2 * B 400)); [|rewrite <- !bpow_plus; apply bpow_le; lia].
    assert (J : B 40 = B 20 * B 20) by (rewrite <- bpow_plus; reflexivity). apply Rmult_le_compat; [nra|lra|rewrite J; apply Rmult_le_compat; lra|]. change (B 2) with 4. unfold E1. lra. }
  destruct (do_imft_f_near fcexp fdot Hexp Hdot f (nr e) (nc e) ppl ppp Uf ltac:(lia) ltac:(lia) Ul Up) as (g & Eg & Rg & Cg & Vg). fold p q in Vg.
  exists f, g. split; [auto|]. split; [auto|]. split; [auto|]. split; [auto|]. intros i j Hi Hj.
  specialize (Vg i j Hi Hj). cbv zeta in Vg. rewrite Rf, Cf in Vg.
  assert (HN' : IZR N = p * q) by (rewrite HN; ring).
  assert (C1 : turns (i - nr e / 2) N q p <= IZR (nr e) / 4) by (rewrite <- Qn'; apply turns_crit; auto; [|lia]; replace (i - nr e / 2)%Z with (- (nr e / 2) + i)%Z by ring; apply centred; auto).
  assert (C2 : turns (j - nc e / 2) N q p <= IZR (nc e) / 4) by (rewrite <- Qm'; apply turns_crit; auto; [|lia]; replace (j - nc e / 2)%Z with (- (nc e / 2) + j)%Z by ring; apply centred; auto).
  destruct (Vg ltac:(lra) ltac:(lra)) as [Fg Dg]. split; [auto|].
  (* the exact inverse of the rounded transform *)
  assert (L : Cmod (fourier_sum 1 (amap cval f) q p (nr e) (nc e) i j - fourier_sum 1 (Arr N N F) q p (nr e) (nc e) i j)%C <= IZR (nr f) * IZR (nc f) * E1 / q ^ 2).
  { apply (fourier_lip 1 (amap cval f) (Arr N N F)); cbn [amap nr nc at2]; auto; try lia. rewrite Rf, Cf. intros u v Hu Hv. exact (proj2 (W1 u v Hu Hv)). }
  assert (I : fourier_sum 1 (Arr N N F) q p (nr e) (nc e) i j = cval (at2 e i j)).
  { apply (inverse_sum (amap cval e) N p q); cbn [amap nr nc]; auto; lia. }
  rewrite I, Rf, Cf in L. apply Rle_trans with (1 := Cmod_sub_le _ (fourier_sum 1 (amap cval f) q p (nr e) (nc e) i j) _).
  assert (L' : Cmod (fourier_sum 1 (amap cval f) q p (nr e) (nc e) i j - cval (at2 e i j))%C <= p ^ 2 * E1).
  { replace (p ^ 2 * E1) with (IZR N * IZR N * E1 / q ^ 2) by (rewrite NN; field; lra). exact L. }
  assert (G : total f / q ^ 2 <= T + K * IZR N * T + p ^ 2 * B (-700)).
  { apply Rle_trans with (IZR N * IZR N * (X + E1) / q ^ 2); [apply Rmult_le_compat_r; [left; apply Rinv_0_lt_compat; auto|auto]|]. rewrite NN. unfold E1, X. right. field. lra. }
  assert (G0 : 0 <= total f / q ^ 2) by (apply Rmult_le_pos; [auto|left; apply Rinv_0_lt_compat; auto]).
  assert (PB : p ^ 2 * B (-700) <= B (-500)). { assert (J : B (-500) = B 200 * B (-700)) by (rewrite <- bpow_plus; reflexivity). rewrite J. apply Rmult_le_compat_r; lra. }
  assert (P1 : p ^ 2 * E1 = K * IZR N * T + p ^ 2 * B (-700)) by (unfold E1, X; field; lra).
  assert (D2 : Cmod (cval (at2 g i j) - fourier_sum 1 (amap cval f) q p (nr e) (nc e) i j)%C <= K * IZR N * (total f / q ^ 2) + B (-700)).
  { apply Rle_trans with (1 := Dg). apply Rplus_le_compat_r, Rmult_le_compat_r; [auto|]. rewrite plus_IZR, Rf, Cf. assert (J : B (-50) = / 8 * B (-47)) by (cbn; lra). rewrite J. unfold K. pose proof (bpow_gt_0 radix2 (-47)). nra. }
  assert (KN0 : 0 <= K * IZR N) by (apply Rmult_le_pos; lra).
  assert (M : K * IZR N * (total f / q ^ 2) <= K * IZR N * T + B (-26) * (K * IZR N * T) + B (-500)).
  { apply Rle_trans with (K * IZR N * (T + K * IZR N * T + B (-500))); [apply Rmult_le_compat_l; lra|].
    assert (0 <= K * IZR N * T) by (apply Rmult_le_pos; auto). pose proof (bpow_gt_0 radix2 (-500)).
    replace (K * IZR N * (T + K * IZR N * T + B (-500))) with (K * IZR N * T + K * IZR N * (K * IZR N * T) + K * IZR N * B (-500)) by ring. nra. }
  assert (S4 : 2 * B (-500) + B (-700) <= B (-400)). { assert (J : B (-400) >= B (-498)) by (apply Rle_ge, bpow_le; lia). assert (J' : B (-498) = 4 * B (-500)) by (change 4 with (B 2); rewrite <- bpow_plus; reflexivity).
    assert (B (-700) <= B (-500)) by (apply bpow_le; lia). pose proof (bpow_gt_0 radix2 (-500)). lra. }
  assert (J45 : B (-45) = 4 * B (-47)) by (cbn; lra). assert (J26 : B (-26) <= / 16) by (cbn; lra).
  assert (NT : 0 <= IZR N * T) by (apply Rmult_le_pos; lra).
  assert (KT : K * IZR N * T = 7 / 4 * (B (-47) * (IZR N * T))) by (unfold K; ring). replace (B (-45) * IZR N * T) with (4 * (B (-47) * (IZR N * T))) by (rewrite J45; ring).
  set (Y := B (-47) * (IZR N * T)) in *. assert (Y0 : 0 <= Y) by (unfold Y; apply Rmult_le_pos; [apply bpow_ge_0|auto]). rewrite KT in *.
  assert (B (-26) * (7 / 4 * Y) <= / 16 * (7 / 4 * Y)) by (apply Rmult_le_compat_r; lra).
  lra.
Qed.
End Lib.
