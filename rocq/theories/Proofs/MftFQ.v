(** Rounding errors of the samplings, kernels and scalings of the matrix Fourier transform. *)
From Coq Require Import ZArith Reals Bool List Lia Lra Psatz.
From Coquelicot Require Import Complex.
From Flocq Require Import Core BinarySingleNaN Relative.
From Verif.Base Require Import Py F64 Arr Vec Sums CSum.
From Verif.Model Require Import ShapesG Mft MftF.
From Verif.Spec Require Import MftSpec MftFSpec.
From Verif.Proofs Require Import F64P F64N PiP ShapesGA NollFP MftFP.
Import ListNotations.
Local Open Scope R_scope.
Local Notation B := (bpow radix2).
Local Notation u := NollFP.u.

Lemma rnd_rel x : x = 0 \/ B (-1000) <= Rabs x -> Rabs (rnd64 x - x) <= u * Rabs x.
Proof.
  intros [->|H]; [rewrite rnd_0, Rminus_0_r, Rabs_R0; lra|].
  pose proof (relative_error_N_FLT radix2 (-1074) 53 eq_refl (fun x => negb (Z.even x)) x) as E.
  assert (E1 : / 2 * B (- (53) + 1) = u) by (unfold u; change (- (53) + 1)%Z with (1 + -53)%Z; rewrite bpow_plus; change (B 1) with 2; field).
  rewrite E1 in E. apply E. eapply Rle_trans; [|exact H]. apply bpow_le. lia.
Qed.
Definition near (c : R) (k m : Z) (x : f64) (X : R) : Prop :=
  is_finite x = true /\ Rabs (fval x - X) <= c * u * Rabs X /\ (X = 0 \/ B (- k) <= Rabs X) /\ Rabs X <= B m.
Lemma rel_abs c x X : 0 <= c <= 50 -> Rabs (x - X) <= c * u * Rabs X -> / 2 * Rabs X <= Rabs x <= 2 * Rabs X.
Proof.
  intros Hc H. pose proof u_small as U. pose proof u_pos as U0. pose proof (Rabs_pos X) as P.
  assert (c * u <= / 2) by nra. assert (c * u * Rabs X <= / 2 * Rabs X) by (apply Rmult_le_compat_r; auto).
  pose proof (Rabs_triang_inv x X). pose proof (Rabs_triang_inv X x). rewrite (Rabs_minus_sym X x) in H3. lra.
Qed.
(** Rounding a number already known up to a relative error. *)
Lemma near_rnd d k m P Q : 0 <= d <= 40 -> (0 <= k <= 950)%Z -> (0 <= m <= 950)%Z -> Rabs (P - Q) <= d * u * Rabs Q -> (Q = 0 \/ B (- k) <= Rabs Q) -> Rabs Q <= B m ->
  Rabs (rnd64 P) < B 1024 /\ Rabs (rnd64 P - Q) <= (d + 1 + / 1000) * u * Rabs Q.
Proof.
  intros Hd Hk Hm H Hq Hb. destruct (rel_abs d P Q ltac:(lra) H) as [L U]. pose proof u_small as Us. pose proof u_pos as U0. pose proof (Rabs_pos Q) as Q0.
  assert (Rl : Rabs (rnd64 P - P) <= u * Rabs P).
  { apply rnd_rel. destruct Hq as [->|Hq]; [left|right].
    - rewrite Rabs_R0, Rmult_0_r in H. pose proof (Rabs_pos (P - 0)). assert (Z : Rabs (P - 0) = 0) by lra. destruct (Req_dec P 0) as [|N]; auto. exfalso. apply (Rabs_no_R0 (P - 0)); lra.
    - assert (B (-1000) <= / 2 * B (- k)); [|lra]. change (/ 2) with (B (-1)). rewrite <- bpow_plus. apply bpow_le. lia. }
  split.
  - apply (rnd_small P 951); [lia|]. change 951%Z with (1 + 950)%Z. rewrite bpow_plus. change (B 1) with 2. assert (B m <= B 950) by (apply bpow_le; lia). lra.
  - replace (rnd64 P - Q) with (rnd64 P - P + (P - Q)) by ring. eapply Rle_trans; [apply Rabs_triang|].
    assert (PQ : Rabs P <= (1 + d * u) * Rabs Q) by (replace P with (P - Q + Q) by ring; eapply Rle_trans; [apply Rabs_triang|]; lra).
    assert (u * Rabs P <= u * ((1 + d * u) * Rabs Q)) by (apply Rmult_le_compat_l; lra).
    assert (d * u <= / 1000) by nra.
    assert (u * ((1 + d * u) * Rabs Q) <= u * ((1 + / 1000) * Rabs Q)) by (apply Rmult_le_compat_l; [lra|apply Rmult_le_compat_r; lra]).
    lra.
Qed.
Lemma near_mul a b c k1 k2 m1 m2 x y X Y : near a k1 m1 x X -> near b k2 m2 y Y -> 0 <= a <= 15 -> 0 <= b <= 15 -> (0 <= k1)%Z -> (0 <= k2)%Z -> (k1 + k2 <= 950)%Z ->
  (0 <= m1)%Z -> (0 <= m2)%Z -> (m1 + m2 <= 950)%Z -> a + b + 1 + / 100 <= c -> near c (k1 + k2) (m1 + m2) (fmul x y) (X * Y) /\ fval (fmul x y) = rnd64 (fval x * fval y).
Proof.
  intros (Fx & Ex & Lx & Bx) (Fy & Ey & Ly & By) Ha Hb K1 K2 K M1 M2 M Hc. pose proof u_small as Us. pose proof u_pos as U0.
  assert (E : Rabs (fval x * fval y - X * Y) <= (a + b + / 1000) * u * Rabs (X * Y)).
  { replace (fval x * fval y - X * Y) with ((fval x - X) * (fval y - Y) + (fval x - X) * Y + X * (fval y - Y)) by ring.
    eapply Rle_trans; [apply Rabs_triang|]. eapply Rle_trans; [apply Rplus_le_compat_r, Rabs_triang|]. rewrite !Rabs_mult. pose proof (Rabs_pos X) as PX. pose proof (Rabs_pos Y) as PY.
    set (p := Rabs X) in *. set (q := Rabs Y) in *. assert (PQ : 0 <= p * q) by (apply Rmult_le_pos; auto).
    assert (Rabs (fval x - X) * Rabs (fval y - Y) <= (a * u * p) * (b * u * q)) by (apply Rmult_le_compat; auto; apply Rabs_pos).
    assert (Rabs (fval x - X) * q <= (a * u * p) * q) by (apply Rmult_le_compat_r; auto).
    assert (p * Rabs (fval y - Y) <= p * (b * u * q)) by (apply Rmult_le_compat_l; auto).
    assert (S1 : a * b * u <= / 1000) by (assert (a * b <= 225) by nra; assert (0 <= a * b) by nra; nra).
    assert (a * b * u * (u * (p * q)) <= / 1000 * (u * (p * q))) by (apply Rmult_le_compat_r; auto; apply Rmult_le_pos; lra). lra. }
  assert (L : X * Y = 0 \/ B (- (k1 + k2)) <= Rabs (X * Y)).
  { destruct Lx as [->|Lx]; [left; ring|]. destruct Ly as [->|Ly]; [left; ring|]. right. rewrite Rabs_mult. replace (- (k1 + k2))%Z with (- k1 + - k2)%Z by lia. rewrite bpow_plus.
    apply Rmult_le_compat; auto; apply bpow_ge_0. }
  assert (U : Rabs (X * Y) <= B (m1 + m2)) by (rewrite Rabs_mult, bpow_plus; apply Rmult_le_compat; auto; apply Rabs_pos).
  destruct (near_rnd (a + b + / 1000) (k1 + k2) (m1 + m2) (fval x * fval y) (X * Y)) as [N1 N2]; auto; try lra; try lia.
  destruct (fmul_spec x y Fx Fy N1) as [V F]. split; [|exact V]. split; auto. split; [|auto]. rewrite V. eapply Rle_trans; [exact N2|].
  apply Rmult_le_compat_r; [apply Rabs_pos|]. apply Rmult_le_compat_r; lra.
Qed.
Lemma near_int k : (Z.abs k <= 2 ^ 20)%Z -> near 0 0 20 (fofZ k) (IZR k).
Proof.
  intros H. destruct (fofZ_spec k) as [V F]; [lia|]. split; auto. split; [rewrite V, Rminus_diag_eq, Rabs_R0 by reflexivity; lra|]. rewrite <- abs_IZR. split.
  - destruct (Z.eq_dec k 0) as [->|N]; [left; reflexivity|right]. change (B (-0)) with 1. apply IZR_le. lia.
  - change (B 20) with (IZR (2 ^ 20)). apply IZR_le. exact H.
Qed.
(** The sampling step (mft.py:219). *)
Lemma near_step p n : usable_sampling p -> (0 < n <= 2 ^ 20)%Z ->
  fle (fdiv (fofZ n) p) fzero = false /\ near (201 / 100) 100 100 (fdiv (fdiv (fofZ n) p) (fofZ n)) (/ fval p).
Proof.
  intros (Fp & Lp & Up) Hn. pose proof u_small as Us. pose proof u_pos as U0. destruct (fofZ_spec n) as [Vn Fn]; [lia|].
  pose proof (bpow_gt_0 radix2 (-100)) as B0. assert (N1 : 1 <= IZR n) by (apply IZR_le; lia). assert (N2 : IZR n <= B 20) by (change (B 20) with (IZR (2 ^ 20)); apply IZR_le; lia).
  assert (I0 : 0 < / fval p) by (apply Rinv_0_lt_compat; lra).
  assert (I1 : B (-100) <= / fval p <= B 100).
  { assert (I : B (-100) = / B 100) by exact (bpow_opp radix2 100). assert (I' : B 100 = / B (-100)) by exact (bpow_opp radix2 (-100)).
    split; [rewrite I|rewrite I']; apply Rinv_le_contravar; lra. }
  assert (Qn : 0 < IZR n / fval p) by (apply Rdiv_lt_0_compat; lra).
  assert (Q1 : B (-100) <= IZR n / fval p) by (unfold Rdiv; nra).
  assert (Q2 : IZR n / fval p <= B 120) by (change 120%Z with (20 + 100)%Z; rewrite bpow_plus; unfold Rdiv; apply Rmult_le_compat; lra).
  destruct (near_rnd 0 100 120 (IZR n / fval p) (IZR n / fval p)) as [W1 W2]; try lra; try lia; [rewrite Rminus_diag_eq, Rabs_R0 by reflexivity; lra|right; change (- (100))%Z with (-100)%Z; rewrite Rabs_right; lra|rewrite Rabs_right; lra|].
  destruct (fdiv_spec (fofZ n) p Fn ltac:(lra)) as [V F]; [rewrite Vn; exact W1|]. rewrite Vn in V. set (wd := fdiv (fofZ n) p) in *.
  rewrite <- V in W2. rewrite (Rabs_right (IZR n / fval p)) in W2 by lra.
  assert (Pw : 0 < fval wd).
  { destruct (rel_abs (0 + 1 + / 1000) (fval wd) (IZR n / fval p)) as [L _]; [lra|rewrite (Rabs_right (IZR n / fval p)) by lra; exact W2|]. rewrite (Rabs_right (IZR n / fval p)) in L by lra.
    apply Rabs_le_inv in W2. assert ((0 + 1 + / 1000) * u <= / 2) by lra. assert ((0 + 1 + / 1000) * u * (IZR n / fval p) <= / 2 * (IZR n / fval p)) by (apply Rmult_le_compat_r; lra). lra. }
  split. { rewrite fle_val by auto. apply Rle_bool_false. exact Pw. }
  assert (E : Rabs (fval wd / IZR n - / fval p) <= (1 + / 1000) * u * Rabs (/ fval p)).
  { replace (fval wd / IZR n - / fval p) with ((fval wd - IZR n / fval p) * / IZR n) by (field; lra). rewrite Rabs_mult, (Rabs_right (/ IZR n)), (Rabs_right (/ fval p)) by (try (apply Rle_ge; left; apply Rinv_0_lt_compat); lra).
    apply Rle_trans with ((0 + 1 + / 1000) * u * (IZR n / fval p) * / IZR n); [apply Rmult_le_compat_r; auto; left; apply Rinv_0_lt_compat; lra|]. right. field. lra. }
  destruct (near_rnd (1 + / 1000) 100 100 _ _ ltac:(lra) ltac:(lia) ltac:(lia) E) as [R1 R2]; [right; change (- (100))%Z with (-100)%Z; rewrite Rabs_right; lra|rewrite Rabs_right; lra|].
  destruct (fdiv_spec wd (fofZ n) F ltac:(lra)) as [V' F']; [rewrite Vn; exact R1|]. rewrite Vn in V'.
  split; auto. rewrite V'. split; [eapply Rle_trans; [exact R2|]; apply Rmult_le_compat_r; [apply Rabs_pos|apply Rmult_le_compat_r; lra]|].
  rewrite Rabs_right by lra. split; [right|]; apply I1.
Qed.
Lemma interval_f_ok p n : usable_sampling p -> (0 < n <= 2 ^ 20)%Z -> let dx := fdiv (fdiv (fofZ n) p) (fofZ n) in
  interval_f (fdiv (fofZ n) p) n = Ok (Vec n (fun k => fmul (fofZ (- (n / 2) + k)) dx), dx).
Proof. intros Hp Hn dx. destruct (near_step p n Hp Hn) as [E _]. unfold interval_f, guard. rewrite E. cbn [negb bind]. destruct (Z.ltb_spec 0 n); [reflexivity|lia]. Qed.

(** ** Complex arithmetic with one part zero *)
Lemma zero_mul x y : is_finite x = true -> is_finite y = true -> fval x * fval y = 0 -> is_finite (fmul x y) = true /\ fval (fmul x y) = 0.
Proof. intros Fx Fy H. destruct (fmul_spec x y Fx Fy) as [V F]; rewrite ?H, ?rnd_0 in *; auto. rewrite Rabs_R0. apply bpow_gt_0. Qed.
Lemma sub_zero x y : is_finite x = true -> is_finite y = true -> fval y = 0 -> is_finite (fsub x y) = true /\ fval (fsub x y) = fval x.
Proof.
  intros Fx Fy H. assert (E : rnd64 (fval x - fval y) = fval x) by (rewrite H, Rminus_0_r; apply rnd_id, fval_format).
  destruct (fsub_spec x y Fx Fy) as [V F]; [rewrite E; apply fval_bound|]. rewrite E in V. auto.
Qed.
Lemma zero_add x y : is_finite x = true -> is_finite y = true -> fval x = 0 -> is_finite (fadd x y) = true /\ fval (fadd x y) = fval y.
Proof.
  intros Fx Fy H. assert (E : rnd64 (fval x + fval y) = fval y) by (rewrite H, Rplus_0_l; apply rnd_id, fval_format).
  destruct (fadd_spec x y Fx Fy) as [V F]; [rewrite E; apply fval_bound|]. rewrite E in V. auto.
Qed.
(** An imaginary number times a real one. *)
Lemma imag_mul a p : cfin a -> fval (fst a) = 0 -> is_finite p = true -> is_finite (fmul (snd a) p) = true ->
  cfin (cmul a (cofF p)) /\ fval (fst (cmul a (cofF p))) = 0 /\ fval (snd (cmul a (cofF p))) = fval (fmul (snd a) p).
Proof.
  intros [F1 F2] Z Fp Fm. unfold cmul, cofF. cbn [fst snd].
  destruct (zero_mul (fst a) p F1 Fp) as [A1 A2]; [rewrite Z; ring|]. destruct (zero_mul (snd a) fzero F2 eq_refl) as [A3 A4]; [cbn; ring|].
  destruct (zero_mul (fst a) fzero F1 eq_refl) as [A5 A6]; [cbn; ring|].
  destruct (sub_zero _ _ A1 A3 A4) as [D1 D2]. destruct (zero_add _ _ A5 Fm A6) as [D3 D4]. split; [split; auto|]. split; [rewrite D2; exact A2|exact D4].
Qed.
(** A complex number times a real one. *)
Lemma real_scale v d : cfin v -> is_finite d = true -> is_finite (fmul (fst v) d) = true -> is_finite (fmul (snd v) d) = true ->
  cfin (cmul v (cofF d)) /\ cval (cmul v (cofF d)) = (fval (fmul (fst v) d), fval (fmul (snd v) d)).
Proof.
  intros [F1 F2] Fd M1 M2. unfold cmul, cofF, cval, cfin. cbn [fst snd].
  destruct (zero_mul (snd v) fzero F2 eq_refl) as [A3 A4]; [cbn; ring|]. destruct (zero_mul (fst v) fzero F1 eq_refl) as [A5 A6]; [cbn; ring|].
  destruct (sub_zero _ _ M1 A3 A4) as [D1 D2]. destruct (zero_add _ _ A5 M2 A6) as [D3 D4]. split; [split; auto|]. rewrite D2, D4. reflexivity.
Qed.
