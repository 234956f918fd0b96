(** Error of the whole matrix Fourier transform in double precision. *)
From Coq Require Import ZArith Reals Bool List Lia Lra Psatz.
From Coquelicot Require Import Complex.
From Flocq Require Import Core BinarySingleNaN Relative.
From Verif.Base Require Import Py F64 Arr Vec Sums CSum.
From Verif.Model Require Import ShapesG Mft MftF.
From Verif.Spec Require Import MftSpec MftFSpec.
From Verif.Proofs Require Import F64P F64N PiP ShapesGA NollFP MftFP MftFQ.
Import ListNotations.
Local Open Scope R_scope.
Local Notation B := (bpow radix2).
Local Notation u := NollFP.u.

Lemma upow k c : (Z.of_nat k = c + 53)%Z -> B c = 2 ^ k * u.
Proof. intros H. unfold u. replace c with (Z.of_nat k + -53)%Z by lia. rewrite bpow_plus. f_equal. rewrite bpow_powerRZ. symmetry. apply (pow_powerRZ 2). Qed.

Lemma twopi_near s : s = 1%Z \/ s = (-1)%Z -> let c := twopi_i (2 * s) in cfin c /\ fval (fst c) = 0 /\ near (67 / 100) 0 3 (snd c) (IZR s * 2 * PI).
Proof.
  assert (V : forall x : f64, B2SF x = SpecFloat.S754_finite false 7074237752028440 (-50) \/ B2SF x = SpecFloat.S754_finite true 7074237752028440 (-50) ->
     Rabs (fval x) = 2 * fval fpi /\ is_finite x = true).
  { intros x H. rewrite fpi_val. unfold fval. rewrite <- SF2R_B2SF.
    split; [|destruct H as [H|H]; rewrite <- is_finite_SF_B2SF, H; reflexivity].
    assert (E : SF2R radix2 (B2SF x) = 7074237752028440 / 2 ^ 50 \/ SF2R radix2 (B2SF x) = - (7074237752028440 / 2 ^ 50)).
    { destruct H as [H|H]; [left|right]; rewrite H; unfold SF2R, F2R; cbn [Fnum Fexp cond_Zopp bpow]; replace (Z.pow_pos radix2 50) with (2 ^ 50)%Z by reflexivity; rewrite (pow_IZR 2 50).
      - reflexivity.
      - change (- 7074237752028440)%Z with (Z.opp 7074237752028440). rewrite opp_IZR. unfold Rdiv. rewrite <- Ropp_mult_distr_l. reflexivity. }
    assert (P : 0 < 7074237752028440 / 2 ^ 50) by (apply Rdiv_lt_0_compat; [lra|apply pow_lt; lra]).
    assert (E2 : 7074237752028440 / 2 ^ 50 = 2 * (7074237752028440 / 2 ^ 51)) by (change 51%nat with (S 50); rewrite <- tech_pow_Rmult; field; apply pow_nonzero; lra).
    rewrite <- E2. destruct E as [->| ->]; [|rewrite Rabs_Ropp]; apply Rabs_right; lra. }
  destruct fpi_near as [N _]. pose proof pi_bounds as P. pose proof u_small as Us. pose proof u_pos as U0. rewrite (upow 1 (-52)) in N by reflexivity. apply Rabs_le_inv in N.
  assert (Fin : forall x X, Rabs (fval x) = 2 * fval fpi -> is_finite x = true -> Rabs X = 2 * PI -> 0 < fval x * X -> near (67 / 100) 0 3 x X).
  { intros x X Ax Fx AX Sg. split; auto. rewrite AX. change (B (-0)) with 1. change (B 3) with 8. split; [|split; [right|]; lra].
    apply Rle_trans with (2 * 2 * u); [|nra]. destruct (Rle_dec 0 X) as [p|p].
    - rewrite (Rabs_right X) in AX by lra. assert (0 <= fval x) by nra. rewrite (Rabs_right (fval x)) in Ax by lra. apply Rabs_le. lra.
    - rewrite (Rabs_left X) in AX by lra. assert (fval x <= 0) by nra. rewrite (Rabs_left1 (fval x)) in Ax by lra. apply Rabs_le. lra. }
  intros [-> | ->] c.
  - assert (S2 : B2SF (snd c) = SpecFloat.S754_finite false 7074237752028440 (-50)) by (vm_compute; reflexivity). assert (S1 : B2SF (fst c) = SpecFloat.S754_zero false) by (vm_compute; reflexivity).
    destruct (V (snd c)) as [A F]; auto. split; [split; auto; rewrite <- is_finite_SF_B2SF, S1; reflexivity|]. split; [unfold fval; rewrite <- SF2R_B2SF, S1; reflexivity|].
    assert (Sg : 0 < fval (snd c)). { unfold fval. rewrite <- SF2R_B2SF, S2. apply F2R_gt_0. reflexivity. }
    apply Fin; auto; [rewrite Rabs_right; lra|]. apply Rmult_lt_0_compat; lra.
  - assert (S2 : B2SF (snd c) = SpecFloat.S754_finite true 7074237752028440 (-50)) by (vm_compute; reflexivity). assert (S1 : B2SF (fst c) = SpecFloat.S754_zero true) by (vm_compute; reflexivity).
    destruct (V (snd c)) as [A F]; auto. split; [split; auto; rewrite <- is_finite_SF_B2SF, S1; reflexivity|]. split; [unfold fval; rewrite <- SF2R_B2SF, S1; reflexivity|].
    assert (Sg : fval (snd c) < 0). { unfold fval. rewrite <- SF2R_B2SF, S2. apply F2R_lt_0. reflexivity. }
    apply Fin; auto; [rewrite Rabs_left; lra|]. nra.
Qed.

Definition step (p : f64) (n : Z) : f64 := fdiv (fdiv (fofZ n) p) (fofZ n).
Section Lib.
Variables (fcexp : c128 -> c128) (fdot : arr c128 -> arr c128 -> arr c128).
Hypotheses (Hexp : cexp_ok fcexp) (Hdot : dot_ok fdot).

(** One entry of a kernel (mft.py:60-61). *)
Lemma kernel_near s kx ky p q nx ny tn : s = 1%Z \/ s = (-1)%Z -> usable_sampling p -> usable_sampling q -> (0 < nx <= 2 ^ 20)%Z -> (0 < ny <= 2 ^ 20)%Z ->
  (Z.abs kx <= 2 ^ 20)%Z -> (Z.abs ky <= 2 ^ 20)%Z -> let t := IZR kx / fval p * (IZR ky / fval q) in Rabs t <= tn -> tn <= B 30 ->
  let z := fcexp (cmul (twopi_i (2 * s)) (cofF (fmul (fmul (fofZ kx) (step p nx)) (fmul (fofZ ky) (step q ny))))) in
  cfin z /\ Cmod (cval z - cis (IZR s * 2 * PI * t))%C <= 56 * u * tn + 4 * u.
Proof.
  intros Hs Hp Hq Hnx Hny Hkx Hky t Ht Htn z. destruct (near_step p nx Hp Hnx) as [_ Sp]. destruct (near_step q ny Hq Hny) as [_ Sq].
  pose proof u_small as Us. pose proof u_pos as U0. pose proof pi_bounds as P.
  destruct (near_mul 0 (201 / 100) (302 / 100) 0 100 20 100 _ _ _ _ (near_int kx Hkx) Sp) as [Nx _]; try lra; try lia.
  destruct (near_mul 0 (201 / 100) (302 / 100) 0 100 20 100 _ _ _ _ (near_int ky Hky) Sq) as [Ny _]; try lra; try lia.
  destruct (near_mul _ _ (705 / 100) _ _ _ _ _ _ _ _ Nx Ny) as [Nxy _]; try lra; try lia.
  destruct (twopi_near s Hs) as (Fc & Zc & Nc).
  destruct (near_mul _ _ (873 / 100) _ _ _ _ _ _ _ _ Nc Nxy) as [Na _]; try lra; try lia.
  change (IZR kx * / fval p * (IZR ky * / fval q)) with t in Na.
  destruct (imag_mul (twopi_i (2 * s)) _ Fc Zc (proj1 Nxy) (proj1 Na)) as (Fa & Za & Va). unfold step in z.
  set (a := cmul (twopi_i (2 * s)) _) in *. destruct Na as (Fm & Em & _). rewrite <- Va in Em.
  assert (At : Rabs (IZR s * 2 * PI * t) <= 64 / 10 * tn).
  { rewrite !Rabs_mult, (Rabs_right PI), (Rabs_right 2) by lra. assert (Rabs (IZR s) = 1) by (destruct Hs as [-> | ->]; [apply Rabs_R1|rewrite Rabs_left by lra; lra]). rewrite H.
    pose proof (Rabs_pos t). nra. }
  assert (T0 : 0 <= tn) by (pose proof (Rabs_pos t); lra).
  assert (Em' : Rabs (fval (snd a) - IZR s * 2 * PI * t) <= 56 * u * tn).
  { eapply Rle_trans; [exact Em|]. apply Rle_trans with (873 / 100 * u * (64 / 10 * tn)); [apply Rmult_le_compat_l; lra|]. assert (0 <= u * tn) by (apply Rmult_le_pos; lra). lra. }
  destruct (Hexp a Fa Za) as [Fz Ez].
  { replace (fval (snd a)) with (fval (snd a) - IZR s * 2 * PI * t + IZR s * 2 * PI * t) by ring. eapply Rle_trans; [apply Rabs_triang|].
    assert (56 * u <= / 2) by lra. assert (56 * u * tn <= / 2 * tn) by (apply Rmult_le_compat_r; lra). apply Rle_trans with (16 * tn); [lra|].
    replace (B 40) with (B 10 * B 30) by (rewrite <- bpow_plus; reflexivity). change (B 10) with 1024. nra. }
  split; [exact Fz|]. eapply Rle_trans; [apply Cmod_sub_le|]. pose proof (cis_lip (fval (snd a)) (IZR s * 2 * PI * t)) as L. rewrite (upow 2 (-51)) in Ez by reflexivity.
  eapply Rle_trans; [apply Rplus_le_compat; [exact Ez|exact L]|]. lra.
Qed.

(** Multiplication by a sampling step (mft.py:63). *)
Lemma Cmod_parts2 (w z : C) k e : 0 <= k -> 0 <= e -> Rabs (fst w) <= k * Rabs (fst z) + e -> Rabs (snd w) <= k * Rabs (snd z) + e -> Cmod w <= k * Cmod z + 2 * e.
Proof.
  intros Hk He H1 H2. set (a := (k * Rabs (fst z), k * Rabs (snd z)) : C). set (b := (e, e) : C).
  assert (E1 : Cmod w <= Cmod (a + b)%C).
  { unfold Cmod. apply sqrt_le_1_alt. unfold Cplus, a, b. cbn [fst snd]. pose proof (Rabs_pos (fst w)). pose proof (Rabs_pos (snd w)).
    assert (Q : forall x y, Rabs x <= y -> x ^ 2 <= y ^ 2) by (intros x y H'; apply Rabs_le_inv in H'; nra). pose proof (Q _ _ H1). pose proof (Q _ _ H2). lra. }
  assert (E2 : Cmod a = k * Cmod z).
  { unfold Cmod, a. cbn [fst snd]. replace ((k * Rabs (fst z)) ^ 2 + (k * Rabs (snd z)) ^ 2) with (Rsqr k * (fst z ^ 2 + snd z ^ 2)).
    - rewrite sqrt_mult_alt by apply Rle_0_sqr. rewrite sqrt_Rsqr by auto. reflexivity.
    - unfold Rsqr. rewrite !Rpow_mult_distr, !pow2_abs. ring. }
  assert (E3 : Cmod b <= 2 * e) by (apply Cmod_parts; cbn; rewrite Rabs_right; lra).
  eapply Rle_trans; [exact E1|]. eapply Rle_trans; [apply Cmod_triangle|]. lra.
Qed.
Lemma scale_near v d D : cfin v -> near (201 / 100) 100 100 d D -> 0 < D -> Cmod (cval v) <= B 800 ->
  cfin (cmul v (cofF d)) /\ Cmod (cval (cmul v (cofF d)) - cval v * RtoC D)%C <= 31 / 10 * u * (Cmod (cval v) * D) + B (-1074).
Proof.
  intros Fv (Fd & Ed & _ & Bd) D0 Hv. pose proof u_small as Us. pose proof u_pos as U0. destruct (rel_abs (201 / 100) (fval d) D ltac:(lra) Ed) as [_ Ud]. rewrite (Rabs_right D) in Ed, Ud, Bd by lra.
  assert (Pr : forall x, Rabs (fval x) <= Cmod (cval v) -> is_finite x = true -> is_finite (fmul x d) = true /\ Rabs (fval (fmul x d) - fval x * fval d) <= u * Rabs (fval d) * Rabs (fval x) + B (-1075)).
  { intros x Hx Fx. destruct (fmul_spec x d Fx Fd) as [V F].
    - apply (rnd_small _ 901); [lia|]. rewrite Rabs_mult. change 901%Z with (800 + 101)%Z. rewrite bpow_plus. change (B 101) with (B (1 + 100)). rewrite (bpow_plus radix2 1 100). change (B 1) with 2.
      apply Rmult_le_compat; try apply Rabs_pos; lra.
    - split; auto. rewrite V. eapply Rle_trans; [apply rnd_err|]. rewrite Rabs_mult. unfold u. lra. }
  destruct Fv as [F1 F2]. destruct (Pr (fst v)) as [M1 E1]; auto; [eapply Rle_trans; [apply (Rmax_l _ (Rabs (snd (cval v))))|]; exact (Rmax_Cmod (cval v))|].
  destruct (Pr (snd v)) as [M2 E2]; auto; [eapply Rle_trans; [apply (Rmax_r (Rabs (fst (cval v))))|]; exact (Rmax_Cmod (cval v))|].
  destruct (real_scale v d (conj F1 F2) Fd M1 M2) as [Fr Vr]. split; auto. rewrite Vr. eapply Rle_trans; [apply (Cmod_sub_le _ (cval v * RtoC (fval d))%C)|].
  assert (Q1 : Cmod ((fval (fmul (fst v) d), fval (fmul (snd v) d)) - cval v * RtoC (fval d))%C <= u * Rabs (fval d) * Cmod (cval v) + 2 * B (-1075)).
  { apply Cmod_parts2; [apply Rmult_le_pos; [lra|apply Rabs_pos]|apply bpow_ge_0| |]; unfold cval, Cminus, Cplus, Copp, Cmult, RtoC; cbn [fst snd].
    - replace (fval (fmul (fst v) d) + - (fval (fst v) * fval d - fval (snd v) * 0)) with (fval (fmul (fst v) d) - fval (fst v) * fval d) by ring. exact E1.
    - replace (fval (fmul (snd v) d) + - (fval (fst v) * 0 + fval (snd v) * fval d)) with (fval (fmul (snd v) d) - fval (snd v) * fval d) by ring. exact E2. }
  assert (Q2 : Cmod (cval v * RtoC (fval d) - cval v * RtoC D)%C <= 201 / 100 * u * (Cmod (cval v) * D)).
  { replace (cval v * RtoC (fval d) - cval v * RtoC D)%C with (cval v * RtoC (fval d - D))%C by (rewrite RtoC_minus; ring). rewrite Cmod_mult, Cmod_R.
    apply Rle_trans with (Cmod (cval v) * (201 / 100 * u * D)); [apply Rmult_le_compat_l; [apply Cmod_ge_0|exact Ed]|lra]. }
  assert (E74 : 2 * B (-1075) = B (-1074)) by (change (-1074)%Z with (1 + -1075)%Z; rewrite bpow_plus; reflexivity).
  assert (Ad : Rabs (fval d) <= 101 / 100 * D).
  { replace (fval d) with (fval d - D + D) by ring. eapply Rle_trans; [apply Rabs_triang|]. rewrite (Rabs_right D) by lra. assert (201 / 100 * u * D <= / 100 * D) by (apply Rmult_le_compat_r; lra). lra. }
  assert (u * Rabs (fval d) * Cmod (cval v) <= u * (101 / 100 * D) * Cmod (cval v)) by (apply Rmult_le_compat_r; [apply Cmod_ge_0|apply Rmult_le_compat_l; lra]).
  assert (0 <= u * (Cmod (cval v) * D)) by (apply Rmult_le_pos; [lra|apply Rmult_le_pos; [apply Cmod_ge_0|lra]]). lra.
Qed.
(** ... twice. *)
Lemma scale2_near v d d' D x eps : cfin v -> near (201 / 100) 100 100 d D -> near (201 / 100) 100 100 d' D -> 0 < D -> Cmod x + eps <= B 600 -> Cmod (cval v - x)%C <= eps ->
  let r := cmul (cmul v (cofF d)) (cofF d') in
  cfin r /\ Cmod (cval r - x * RtoC (D ^ 2))%C <= (63 / 10 * u * (Cmod x + eps) + eps) * D ^ 2 + B (-800).
Proof.
  intros Fv Nd Nd' D0 Bx Ex r. pose proof u_small as Us. pose proof u_pos as U0.
  assert (Bd : D <= B 100) by (destruct Nd as (_ & _ & _ & Q); rewrite Rabs_right in Q; lra).
  assert (Mv : Cmod (cval v) <= Cmod x + eps) by (pose proof (Cmod_near (cval v) x); lra). pose proof (Cmod_ge_0 (cval v)) as V0.
  assert (B600 : B 600 <= B 800) by (apply bpow_le; lia).
  destruct (scale_near v d D Fv Nd D0 ltac:(lra)) as [F1 E1]. set (v1 := cmul v (cofF d)) in *.
  assert (S74 : B (-1074) <= B (-1000) /\ 0 < B (-1074)) by (split; [apply bpow_le; lia|apply bpow_gt_0]).
  assert (M1 : Cmod (cval v1) <= (1 + 31 / 10 * u) * (Cmod (cval v) * D) + B (-1074)).
  { pose proof (Cmod_near (cval v1) (cval v * RtoC D)%C) as Q. rewrite Cmod_mult, Cmod_R, (Rabs_right D) in Q by lra. lra. }
  assert (VD : 0 <= Cmod (cval v) * D <= B 700).
  { split; [apply Rmult_le_pos; lra|]. change 700%Z with (600 + 100)%Z. rewrite bpow_plus. apply Rmult_le_compat; lra. }
  assert (B1 : 1 <= B 700 /\ 2 * B 700 + 1 <= B 800).
  { assert (1 <= B 700) by (change 1 with (B 0); apply bpow_le; lia). split; auto. change 800%Z with (100 + 700)%Z. rewrite bpow_plus.
    assert (4 <= B 100) by (change 4 with (B 2); apply bpow_le; lia). nra. }
  assert (S1 : B (-1074) <= 1) by (change 1 with (B 0); apply bpow_le; lia).
  assert (U1 : (1 + 31 / 10 * u) * (Cmod (cval v) * D) <= 2 * (Cmod (cval v) * D)) by (apply Rmult_le_compat_r; lra).
  destruct (scale_near v1 d' D F1 Nd' D0 ltac:(lra)) as [F2 E2]. fold r in F2, E2. split; auto.
  eapply Rle_trans; [apply (Cmod_sub_le _ (cval v1 * RtoC D)%C)|]. eapply Rle_trans; [apply Rplus_le_compat_l, (Cmod_sub_le _ (cval v * RtoC D * RtoC D)%C)|].
  assert (Q1 : Cmod (cval v1 * RtoC D - cval v * RtoC D * RtoC D)%C <= (31 / 10 * u * (Cmod (cval v) * D) + B (-1074)) * D).
  { replace (cval v1 * RtoC D - cval v * RtoC D * RtoC D)%C with ((cval v1 - cval v * RtoC D) * RtoC D)%C by ring. rewrite Cmod_mult, Cmod_R, (Rabs_right D) by lra. apply Rmult_le_compat_r; lra. }
  assert (Q2 : Cmod (cval v * RtoC D * RtoC D - x * RtoC (D ^ 2))%C <= eps * D ^ 2).
  { replace (cval v * RtoC D * RtoC D - x * RtoC (D ^ 2))%C with ((cval v - x) * RtoC (D ^ 2))%C.
    - rewrite Cmod_mult, Cmod_R, (Rabs_right (D ^ 2)) by (apply Rle_ge, pow2_ge_0). apply Rmult_le_compat_r; [apply pow2_ge_0|exact Ex].
    - replace (D ^ 2) with (D * D) by ring. rewrite RtoC_mult. ring. }
  assert (Q3 : 31 / 10 * u * (Cmod (cval v1) * D) <= 31 / 10 * u * (((1 + 31 / 10 * u) * (Cmod (cval v) * D) + B (-1074)) * D)).
  { apply Rmult_le_compat_l; [lra|]. apply Rmult_le_compat_r; lra. }
  set (m := Cmod (cval v)) in *. set (t := B (-1074)) in *.
  assert (D2 : 0 <= D ^ 2) by apply pow2_ge_0.
  assert (Mm : m * D ^ 2 <= (Cmod x + eps) * D ^ 2) by (apply Rmult_le_compat_r; auto).
  assert (Tt : t * D <= B (-974)) by (change (-974)%Z with (-1074 + 100)%Z; rewrite bpow_plus; fold t; apply Rmult_le_compat_l; lra).
  assert (B8 : 4 * B (-974) <= B (-800)) by (change 4 with (B 2); rewrite <- bpow_plus; apply bpow_le; lia).
  assert (B9 : t <= B (-974)) by (apply bpow_le; lia).
  assert (TD : 0 <= t * D) by (apply Rmult_le_pos; lra).
  assert (W1 : 31 / 10 * u * (((1 + 31 / 10 * u) * (m * D) + t) * D) <= 311 / 100 * u * (m * D ^ 2) + / 2 * (t * D)).
  { replace (31 / 10 * u * (((1 + 31 / 10 * u) * (m * D) + t) * D)) with (31 / 10 * (1 + 31 / 10 * u) * (u * (m * D ^ 2)) + 31 / 10 * u * (t * D)) by ring.
    assert (0 <= u * (m * D ^ 2)) by (apply Rmult_le_pos; [lra|apply Rmult_le_pos; lra]).
    assert (31 / 10 * (1 + 31 / 10 * u) * (u * (m * D ^ 2)) <= 311 / 100 * (u * (m * D ^ 2))) by (apply Rmult_le_compat_r; lra).
    assert (31 / 10 * u * (t * D) <= / 2 * (t * D)) by (apply Rmult_le_compat_r; lra). lra. }
  assert (W2 : (31 / 10 * u * (m * D) + t) * D = 31 / 10 * u * (m * D ^ 2) + t * D) by ring. rewrite W2 in Q1.
  assert (W3 : 621 / 100 * u * (m * D ^ 2) <= 63 / 10 * u * ((Cmod x + eps) * D ^ 2)).
  { apply Rle_trans with (621 / 100 * u * ((Cmod x + eps) * D ^ 2)); [apply Rmult_le_compat_l; lra|]. assert (0 <= u * ((Cmod x + eps) * D ^ 2)) by (apply Rmult_le_pos; [lra|apply Rmult_le_pos; lra]). lra. }
  lra.
Qed.
End Lib.
