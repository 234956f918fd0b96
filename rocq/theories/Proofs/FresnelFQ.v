(** Root sums of squares of complex fields, and the error of the whole propagation. *)
From Coq Require Import ZArith Reals Bool List Lia Lra Psatz.
From Coquelicot Require Import Complex.
From Flocq Require Import Core BinarySingleNaN.
From Verif.Base Require Import Py F64 Arr Sums CSum Fft.
From Verif.Model Require Import PadCrop MftF FresnelF Fresnel.
From Verif.Spec Require Import ConjugateSpec MftFSpec NollFSpec FresnelSpec FresnelFSpec.
From Verif.Proofs Require Import F64P F64N PiP PadCropP ConjugateP NollFP MftFP MftFQ MftFR FresnelP FresnelFP.
Import ListNotations.
Local Open Scope R_scope.
Local Notation B := (bpow radix2).
Local Notation u := NollFP.u.

(** ** The norm *)
Definition nrm (n m : Z) (f : Z -> Z -> C) : R := sqrt (rsum2 (fun i j => Cmod2 (f i j)) n m).
Lemma Cmod2_Cmod z : Cmod2 z = Cmod z ^ 2.
Proof. unfold Cmod2, Cmod. rewrite pow2_sqrt; [ring|]. pose proof (pow2_ge_0 (fst z)). pose proof (pow2_ge_0 (snd z)). lra. Qed.
Lemma sum_ge0 n m f : 0 <= rsum2 (fun i j => Cmod2 (f i j)) n m.
Proof. apply rsum2_nonneg. intros. apply Cmod2_nonneg. Qed.
Lemma nrm_ge0 n m f : 0 <= nrm n m f.
Proof. apply sqrt_pos. Qed.
Lemma nrm_sq n m f : nrm n m f ^ 2 = rsum2 (fun i j => Cmod2 (f i j)) n m.
Proof. apply pow2_sqrt, sum_ge0. Qed.
Lemma nrm_ext n m f g : (forall i j, (0 <= i < n)%Z -> (0 <= j < m)%Z -> f i j = g i j) -> nrm n m f = nrm n m g.
Proof. intros H. unfold nrm. f_equal. apply rsum2_ext. intros i j Hi Hj. rewrite H; auto. Qed.
Lemma sq_le a b : 0 <= b -> a ^ 2 <= b ^ 2 -> a <= b.
Proof. intros Hb H. destruct (Rle_dec a b); auto. nra. Qed.
Lemma nrm_le n m f g c : 0 <= c -> (forall i j, (0 <= i < n)%Z -> (0 <= j < m)%Z -> Cmod (f i j) <= c * Cmod (g i j)) -> nrm n m f <= c * nrm n m g.
Proof.
  intros Hc H. apply sq_le; [apply Rmult_le_pos; [auto|apply nrm_ge0]|]. rewrite Rpow_mult_distr, !nrm_sq, <- rsum2_scal. apply rsum2_le. intros i j Hi Hj. rewrite !Cmod2_Cmod, <- Rpow_mult_distr.
  apply pow_incr. split; [apply Cmod_ge_0|auto].
Qed.
Lemma nrm_scal n m (c : C) f : nrm n m (fun i j => c * f i j)%C = Cmod c * nrm n m f.
Proof.
  unfold nrm. rewrite (rsum2_ext _ (fun i j => Cmod2 c * Cmod2 (f i j))) by (intros; apply Cmod2_mult). rewrite rsum2_scal, sqrt_mult_alt by apply Cmod2_nonneg. f_equal.
  rewrite Cmod2_Cmod, sqrt_pow2; [reflexivity|apply Cmod_ge_0].
Qed.
Lemma cauchy n m (f g : Z -> Z -> R) : rsum2 (fun i j => f i j * g i j) n m ^ 2 <= rsum2 (fun i j => f i j ^ 2) n m * rsum2 (fun i j => g i j ^ 2) n m.
Proof. exact (use_cauchy (Arr n m (fun _ _ => true)) f g). Qed.
Lemma nrm_add n m f g : nrm n m (fun i j => f i j + g i j)%C <= nrm n m f + nrm n m g.
Proof.
  apply sq_le; [pose proof (nrm_ge0 n m f); pose proof (nrm_ge0 n m g); lra|]. set (X := rsum2 (fun i j => Cmod (f i j) * Cmod (g i j)) n m).
  assert (H : nrm n m (fun i j => f i j + g i j)%C ^ 2 <= nrm n m f ^ 2 + 2 * X + nrm n m g ^ 2).
  { rewrite !nrm_sq. unfold X. rewrite <- rsum2_scal, <- !rsum2_add. apply rsum2_le. intros i j Hi Hj. rewrite !Cmod2_Cmod. pose proof (Cmod_triangle (f i j) (g i j)). pose proof (Cmod_ge_0 (f i j + g i j)%C). nra. }
  assert (Q : X ^ 2 <= (nrm n m f * nrm n m g) ^ 2).
  { rewrite Rpow_mult_distr, !nrm_sq. unfold X. eapply Rle_trans; [apply cauchy|]. right. f_equal; apply rsum2_ext; intros; symmetry; apply Cmod2_Cmod. }
  apply sq_le in Q; [|apply Rmult_le_pos; apply nrm_ge0]. nra.
Qed.
Lemma nrm_tri n m f g h : nrm n m (fun i j => f i j - h i j)%C <= nrm n m (fun i j => f i j - g i j)%C + nrm n m (fun i j => g i j - h i j)%C.
Proof. eapply Rle_trans; [|apply nrm_add]. right. apply nrm_ext. intros. ring. Qed.
Lemma nrm_near n m f g : nrm n m f <= nrm n m g + nrm n m (fun i j => f i j - g i j)%C.
Proof. eapply Rle_trans; [|apply nrm_add]. right. apply nrm_ext. intros. ring. Qed.
Lemma nrm_const n t : (0 <= n)%Z -> 0 <= t -> nrm n n (fun _ _ => RtoC t) = IZR n * t.
Proof.
  intros Hn Ht. unfold nrm. rewrite rsum2_const by auto. rewrite Cmod2_R. apply IZR_le in Hn. replace (IZR n * IZR n * (t * t)) with (Rsqr (IZR n * t)) by (unfold Rsqr; ring). apply sqrt_Rsqr. apply Rmult_le_pos; auto.
Qed.
Lemma nrm_mixed n f g c t : (0 <= n)%Z -> 0 <= c -> 0 <= t -> (forall i j, (0 <= i < n)%Z -> (0 <= j < n)%Z -> Cmod (f i j) <= c * Cmod (g i j) + t) -> nrm n n f <= c * nrm n n g + IZR n * t.
Proof.
  intros Hn Hc Ht H. rewrite <- (nrm_const n t Hn Ht). apply Rle_trans with (nrm n n (fun i j => RtoC (c * Cmod (g i j)) + RtoC t)%C).
  - rewrite <- (Rmult_1_l (nrm n n (fun i j => _ + _)%C)). apply nrm_le; [lra|]. intros i j Hi Hj. rewrite Rmult_1_l, <- RtoC_plus, Cmod_R, Rabs_right; auto.
    pose proof (Cmod_ge_0 (g i j)). assert (0 <= c * Cmod (g i j)) by (apply Rmult_le_pos; auto). lra.
  - eapply Rle_trans; [apply nrm_add|]. apply Rplus_le_compat_r. apply nrm_le; auto. intros i j Hi Hj. rewrite Cmod_R, Rabs_right; [lra|]. apply Rle_ge, Rmult_le_pos; [auto|apply Cmod_ge_0].
Qed.
Lemma nrm_dft s n f : (s = 1 \/ s = -1)%Z -> (0 <= n)%Z -> nrm n n (cdft2 s n n f) = IZR n * nrm n n f.
Proof.
  intros Hs Hn. unfold nrm at 1. rewrite cdft2_parseval by auto. apply IZR_le in Hn. rewrite sqrt_mult_alt by (apply Rmult_le_pos; auto). f_equal. apply sqrt_square; auto.
Qed.
Lemma cdft2_sub s n m f g k l : cdft2 s n m (fun i j => f i j - g i j)%C k l = (cdft2 s n m f k l - cdft2 s n m g k l)%C.
Proof.
  rewrite (cdft2_ext _ _ _ _ (fun i j => f i j + (Copp 1) * g i j)%C) by (intros; ring). rewrite cdft2_add, cdft2_scal. ring.
Qed.
Lemma nrm_roll n m f a b : (0 < n)%Z -> (0 < m)%Z -> nrm n m (fun i j => f ((i - a) mod n) ((j - b) mod m))%Z = nrm n m f.
Proof.
  intros Hn Hm. unfold nrm. f_equal. unfold rsum2. rewrite <- (rsum_roll (fun i => rsum (fun j => Cmod2 (f i j)) m) n (- a)) by auto. apply rsum_ext. intros i Hi.
  rewrite <- (rsum_roll (fun j => Cmod2 (f ((i + - a) mod n)%Z j)) m (- b)) by auto. apply rsum_ext. intros j Hj. reflexivity.
Qed.
Lemma field_size_nrm a : field_size a = nrm (nr a) (nc a) (at2 a).
Proof. unfold field_size, nrm. rewrite energy_mod2. reflexivity. Qed.
Lemma field_dist_nrm a b : field_dist a b = nrm (nr a) (nc a) (fun i j => at2 a i j - at2 b i j)%C.
Proof. unfold field_dist, nrm. rewrite energy_mod2. reflexivity. Qed.
Lemma nrm_term n m f i j : (0 <= i < n)%Z -> (0 <= j < m)%Z -> Cmod (f i j) <= nrm n m f.
Proof.
  intros Hi Hj. apply sq_le; [apply nrm_ge0|]. rewrite nrm_sq, <- Cmod2_Cmod. apply (rsum2_term_le (fun i j => Cmod2 (f i j))); auto. intros. apply Cmod2_nonneg.
Qed.

(** ** A complex product *)
Lemma part_err (a b c d : f64) s : is_finite a = true -> is_finite b = true -> is_finite c = true -> is_finite d = true ->
  Rabs (fval a * fval b) + Rabs (fval c * fval d) <= s -> s <= B 900 ->
  (is_finite (fsub (fmul a b) (fmul c d)) = true /\ Rabs (fval (fsub (fmul a b) (fmul c d)) - (fval a * fval b - fval c * fval d)) <= 21 / 10 * u * s + B (-1070)) /\
  (is_finite (fadd (fmul a b) (fmul c d)) = true /\ Rabs (fval (fadd (fmul a b) (fmul c d)) - (fval a * fval b + fval c * fval d)) <= 21 / 10 * u * s + B (-1070)).
Proof.
  intros Fa Fb Fc Fd Hs HB. set (x := fval a * fval b) in *. set (y := fval c * fval d) in *. pose proof u_small as Us. pose proof u_pos as U0. pose proof (Rabs_pos x) as X0. pose proof (Rabs_pos y) as Y0.
  destruct (rnd_small x 900) as [X1 X2]; [lia|lra|]. destruct (rnd_small y 900) as [Y1 Y2]; [lia|lra|].
  destruct (fmul_spec a b Fa Fb X2) as [V1 F1]. destruct (fmul_spec c d Fc Fd Y2) as [V2 F2]. fold x in V1. fold y in V2.
  pose proof (rnd_err x) as E1. pose proof (rnd_err y) as E2. fold u in E1, E2. set (t := B (-1075)) in *. assert (T0 : 0 < t) by apply bpow_gt_0. assert (T1 : B (-1070) = 32 * t) by (unfold t; change 32 with (B 5); rewrite <- bpow_plus; reflexivity).
  assert (G : forall z Z0, Rabs (z - Z0) <= u * Rabs x + t + (u * Rabs y + t) -> Rabs Z0 <= s -> Rabs (rnd64 z - Z0) <= 21 / 10 * u * s + B (-1070) /\ Rabs (rnd64 z) < B 1024).
  { intros z Z0 H1 H2. assert (H3 : Rabs (z - Z0) <= u * s + 2 * t) by nra. assert (T2 : t <= 1) by (unfold t; change 1 with (B 0); apply bpow_le; lia).
    assert (Hz : Rabs z <= (1 + u) * s + 2 * t) by (replace z with (z - Z0 + Z0) by ring; eapply Rle_trans; [apply Rabs_triang|]; lra). split.
    - replace (rnd64 z - Z0) with (rnd64 z - z + (z - Z0)) by ring. eapply Rle_trans; [apply Rabs_triang|]. pose proof (rnd_err z) as E. fold u t in E.
      assert (u * Rabs z <= u * ((1 + u) * s + 2 * t)) by (apply Rmult_le_compat_l; lra). assert (u * u * s <= 1 / 100 * u * s) by (apply Rmult_le_compat_r; [lra|]; apply Rmult_le_compat_r; lra).
      assert (0 <= u * s) by (apply Rmult_le_pos; lra). assert (u * t <= t) by nra. rewrite T1. lra.
    - apply (rnd_small z 902); [lia|]. apply Rle_trans with (1 := Hz). assert (s0 : 0 <= s) by lra. assert (B900 : 1 <= B 900) by (change 1 with (B 0); apply bpow_le; lia).
      replace (B 902) with (4 * B 900) by (change 4 with (B 2); rewrite <- bpow_plus; reflexivity). nra. }
  split.
  - destruct (G (rnd64 x - rnd64 y) (x - y)) as [G1 G2].
    + replace (rnd64 x - rnd64 y - (x - y)) with ((rnd64 x - x) + - (rnd64 y - y)) by ring. eapply Rle_trans; [apply Rabs_triang|]. rewrite Rabs_Ropp. lra.
    + unfold Rminus. eapply Rle_trans; [apply Rabs_triang|]. rewrite Rabs_Ropp. exact Hs.
    + destruct (fsub_spec _ _ F1 F2) as [V F]; [rewrite V1, V2; exact G2|]. split; auto. rewrite V, V1, V2. exact G1.
  - destruct (G (rnd64 x + rnd64 y) (x + y)) as [G1 G2].
    + replace (rnd64 x + rnd64 y - (x + y)) with ((rnd64 x - x) + (rnd64 y - y)) by ring. eapply Rle_trans; [apply Rabs_triang|]. lra.
    + eapply Rle_trans; [apply Rabs_triang|]. exact Hs.
    + destruct (fadd_spec _ _ F1 F2) as [V F]; [rewrite V1, V2; exact G2|]. split; auto. rewrite V, V1, V2. exact G1.
Qed.
Lemma abs_parts (z : C) : Rabs (fst z) <= Cmod z /\ Rabs (snd z) <= Cmod z.
Proof. pose proof (Rmax_Cmod z) as M. pose proof (Rmax_l (Rabs (fst z)) (Rabs (snd z))). pose proof (Rmax_r (Rabs (fst z)) (Rabs (snd z))). lra. Qed.
Lemma cmul_err z w s : cfin z -> cfin w -> Cmod (cval z) * Cmod (cval w) <= s -> s <= B 800 ->
  cfin (cmul z w) /\ Cmod (cval (cmul z w) - cval z * cval w)%C <= 9 * u * s + B (-1060).
Proof.
  intros [Z1 Z2] [W1 W2] Hs HB. destruct (abs_parts (cval z)) as [A1 A2]. destruct (abs_parts (cval w)) as [D1 D2]. cbn [cval fst snd] in A1, A2, D1, D2.
  assert (Q : forall a b, Rabs a <= Cmod (cval z) -> Rabs b <= Cmod (cval w) -> Rabs (a * b) <= s).
  { intros a b Ha Hb. rewrite Rabs_mult. eapply Rle_trans; [|exact Hs]. apply Rmult_le_compat; auto; apply Rabs_pos. }
  assert (S2 : 2 * s <= B 900) by (apply Rle_trans with (B 1 * B 800); [change (B 1) with 2; lra|rewrite <- bpow_plus; apply bpow_le; lia]).
  destruct (part_err (fst z) (fst w) (snd z) (snd w) (2 * s) Z1 W1 Z2 W2) as [[F1 E1] _]; auto. { pose proof (Q (fval (fst z)) (fval (fst w)) A1 D1). pose proof (Q (fval (snd z)) (fval (snd w)) A2 D2). lra. }
  destruct (part_err (fst z) (snd w) (snd z) (fst w) (2 * s) Z1 W2 Z2 W1) as [_ [F2 E2]]; auto. { pose proof (Q (fval (fst z)) (fval (snd w)) A1 D2). pose proof (Q (fval (snd z)) (fval (fst w)) A2 D1). lra. }
  split; [split; assumption|]. pose proof u_pos. assert (0 <= s) by (pose proof (Cmod_ge_0 (cval z)); pose proof (Cmod_ge_0 (cval w)); nra).
  assert (T : 2 * B (-1070) <= B (-1060)) by (replace (B (-1060)) with (1024 * B (-1070)) by (change 1024 with (B 10); rewrite <- bpow_plus; reflexivity); pose proof (bpow_gt_0 radix2 (-1070)); lra).
  apply Rle_trans with (2 * (21 / 10 * u * (2 * s) + B (-1070))); [|assert (0 <= u * s) by (apply Rmult_le_pos; lra); lra].
  apply Cmod_parts; unfold cval, cmul, Cminus, Cplus, Copp, Cmult; cbn [fst snd]; assumption.
Qed.
