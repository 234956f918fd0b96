(** Rounding errors of the pieces of the matrix Fourier transform. *)
From Coq Require Import ZArith Reals Bool List Lia Lra Psatz.
From Coquelicot Require Import Complex.
From Flocq Require Import Core BinarySingleNaN Relative.
From Verif.Base Require Import Py F64 Arr Vec Sums CSum.
From Verif.Model Require Import ShapesG Mft MftF.
From Verif.Spec Require Import MftSpec MftFSpec.
From Verif.Proofs Require Import F64P F64N PiP NollFP.
Import ListNotations.
Local Open Scope R_scope.
Local Notation B := (bpow radix2).

(** ** Sums and magnitudes of complex numbers *)
Lemma Cmod_csum f n : Cmod (csum f n) <= rsum (fun k => Cmod (f k)) n.
Proof.
  unfold csum, rsum, gsum. induction (Z.to_nat n) as [|k IH]; cbn [gnsum]; [rewrite Cmod_0; lra|].
  eapply Rle_trans; [apply Cmod_triangle|]. lra.
Qed.
Lemma Cmod_cis t : Cmod (cis t) = 1.
Proof. unfold Cmod, cis. cbn [fst snd]. pose proof (sin2_cos2 t) as H. unfold Rsqr in H. replace (cos t ^ 2 + sin t ^ 2) with 1 by (cbn; lra). apply sqrt_1. Qed.
Lemma sin_abs_le x : Rabs (sin x) <= Rabs x.
Proof.
  pose proof (MVT_abs sin cos 0 x) as M. destruct M as (c & E & _); [intros; apply derivable_pt_lim_sin|].
  rewrite sin_0, !Rminus_0_r in E. rewrite E. pose proof (COS_bound c) as Cb. assert (Rabs (cos c) <= 1) by (apply Rabs_le; lra). pose proof (Rabs_pos x). nra.
Qed.
Lemma cis_lip a b : Cmod (cis a - cis b)%C <= Rabs (a - b).
Proof.
  assert (E : (cis a - cis b)%C = (cis ((a + b) / 2)%R * (0%R, (2 * sin ((a - b) / 2))%R))%C).
  { set (p := (a + b) / 2). set (q := (a - b) / 2). replace a with (p + q) by (unfold p, q; field). replace b with (p - q) by (unfold p, q; field).
    unfold cis, Cminus, Cplus, Copp, Cmult. cbn [fst snd]. rewrite cos_plus, cos_minus, sin_plus, sin_minus. f_equal; ring. }
  rewrite E, Cmod_mult, Cmod_cis, Rmult_1_l. unfold Cmod. cbn [fst snd]. replace (0 ^ 2 + (2 * sin ((a - b) / 2)) ^ 2) with (Rsqr (2 * sin ((a - b) / 2))) by (unfold Rsqr; ring).
  rewrite sqrt_Rsqr_abs, Rabs_mult, (Rabs_right 2) by lra. pose proof (sin_abs_le ((a - b) / 2)) as H.
  replace (Rabs ((a - b) / 2)) with (Rabs (a - b) / 2) in H; [lra|]. unfold Rdiv. rewrite Rabs_mult, (Rabs_right (/ 2)) by lra. reflexivity.
Qed.
Lemma Cmod_sub_le (a b c : C) : Cmod (a - c)%C <= Cmod (a - b)%C + Cmod (b - c)%C.
Proof. replace (a - c)%C with ((a - b) + (b - c))%C by ring. apply Cmod_triangle. Qed.
Lemma Cmod_near (a b : C) : Cmod a <= Cmod b + Cmod (a - b)%C.
Proof. replace a with (b + (a - b))%C at 1 by ring. apply Cmod_triangle. Qed.
Lemma Cmod_parts (z : C) e : Rabs (fst z) <= e -> Rabs (snd z) <= e -> Cmod z <= 2 * e.
Proof.
  intros H1 H2. assert (0 <= e) by (pose proof (Rabs_pos (fst z)); lra). unfold Cmod. rewrite <- (sqrt_Rsqr (2 * e)) by lra. apply sqrt_le_1_alt. unfold Rsqr.
  apply Rabs_le_inv in H1. apply Rabs_le_inv in H2. cbn. nra.
Qed.
Lemma Cmod_scaled (z : C) (a b c k : R) : 0 <= k -> 0 <= c -> Rabs (a - fst z * c) <= k * Rabs (fst z * c) -> Rabs (b - snd z * c) <= k * Rabs (snd z * c) ->
  Cmod ((a, b) - z * RtoC c)%C <= k * (Cmod z * c).
Proof.
  intros Hk Hc H1 H2. assert (E : k * (Cmod z * c) = sqrt (Rsqr (k * c) * (fst z ^ 2 + snd z ^ 2))).
  { rewrite sqrt_mult_alt by apply Rle_0_sqr. rewrite sqrt_Rsqr by (apply Rmult_le_pos; auto). unfold Cmod. ring. }
  rewrite E. unfold Cmod. apply sqrt_le_1_alt. unfold Cminus, Cplus, Copp, Cmult, RtoC. cbn [fst snd].
  assert (Q : forall x y, Rabs (x - y * c) <= k * Rabs (y * c) -> (x - y * c) ^ 2 <= Rsqr (k * c) * y ^ 2).
  { intros x y H. replace ((x - y * c) ^ 2) with (Rabs (x - y * c) * Rabs (x - y * c)) by (rewrite <- Rabs_mult, Rabs_right; [ring|]; apply Rle_ge; replace ((x - y * c) * (x - y * c)) with (Rsqr (x - y * c)) by reflexivity; apply Rle_0_sqr).
    replace (Rsqr (k * c) * y ^ 2) with ((k * Rabs (y * c)) * (k * Rabs (y * c))).
    - apply Rmult_le_compat; auto; apply Rabs_pos.
    - replace (k * Rabs (y * c) * (k * Rabs (y * c))) with (k * k * (Rabs (y * c) * Rabs (y * c))) by ring. rewrite <- Rabs_mult, Rabs_right; [unfold Rsqr; ring|]. apply Rle_ge. apply Rle_0_sqr. }
  pose proof (Q _ _ H1). pose proof (Q _ _ H2).
  replace (a + - (fst z * c - snd z * 0)) with (a - fst z * c) by ring. replace (b + - (fst z * 0 + snd z * c)) with (b - snd z * c) by ring. nra.
Qed.

(** ** Transforms with inexact factors and inexact sums *)
Lemma core n m (e : Z -> Z -> C) (rf rx cf cx t1 : Z -> C) (t2 : C) kr kc gn gm eta :
  (0 <= m)%Z -> 0 <= kr <= / 100 -> 0 <= kc <= / 100 -> 0 <= gn <= / 100 -> 0 <= gm <= / 100 -> 0 <= eta ->
  (forall i, (0 <= i < n)%Z -> Cmod (rx i) = 1 /\ Cmod (rf i - rx i)%C <= kr) ->
  (forall j, (0 <= j < m)%Z -> Cmod (cx j) = 1 /\ Cmod (cf j - cx j)%C <= kc) ->
  (forall j, (0 <= j < m)%Z -> Cmod (t1 j - csum (fun i => rf i * e i j) n)%C <= gn * rsum (fun i => Cmod (rf i) * Cmod (e i j)) n + eta) ->
  Cmod (t2 - csum (fun j => t1 j * cf j) m)%C <= gm * rsum (fun j => Cmod (t1 j) * Cmod (cf j)) m + eta ->
  let tot := rsum2 (fun i j => Cmod (e i j)) n m in
  Cmod (t2 - csum2 (fun i j => e i j * (rx i * cx j)) n m)%C <= 11 / 10 * (kr + kc + gn + gm) * tot + 2 * IZR (m + 1) * eta.
Proof.
  intros Hm Hkr Hkc Hgn Hgm He Hr Hc H1 H2 tot.
  set (s := fun j => rsum (fun i => Cmod (e i j)) n). set (x := fun j => csum (fun i => rx i * e i j)%C n).
  assert (S0 : forall j, 0 <= s j) by (intros; apply rsum_nonneg; intros; apply Cmod_ge_0).
  assert (T : tot = rsum s m) by (unfold tot; rewrite rsum2_swap; reflexivity).
  assert (T0 : 0 <= tot) by (rewrite T; apply rsum_nonneg; auto).
  assert (Rf : forall i, (0 <= i < n)%Z -> Cmod (rf i) <= 101 / 100).
  { intros i Hi. destruct (Hr i Hi) as [A A']. pose proof (Cmod_near (rf i) (rx i)). lra. }
  assert (Cf : forall j, (0 <= j < m)%Z -> Cmod (cf j) <= 101 / 100).
  { intros j Hj. destruct (Hc j Hj) as [A A']. pose proof (Cmod_near (cf j) (cx j)). lra. }
  assert (X : forall j, Cmod (x j) <= s j).
  { intros j. unfold x, s. eapply Rle_trans; [apply Cmod_csum|]. apply rsum_le. intros i Hi. rewrite Cmod_mult. destruct (Hr i Hi) as [A _]. rewrite A. lra. }
  set (al := kr + 101 / 100 * gn).
  assert (D1 : forall j, (0 <= j < m)%Z -> Cmod (t1 j - x j)%C <= al * s j + eta).
  { intros j Hj. pose proof (H1 j Hj) as Q. pose proof (Cmod_sub_le (t1 j) (csum (fun i => rf i * e i j)%C n) (x j)) as P.
    assert (G : rsum (fun i => Cmod (rf i) * Cmod (e i j)) n <= 101 / 100 * s j).
    { unfold s. rewrite <- rsum_scal. apply rsum_le. intros i Hi. apply Rmult_le_compat_r; [apply Cmod_ge_0|auto]. }
    assert (G2 : Cmod (csum (fun i => rf i * e i j) n - x j)%C <= kr * s j).
    { unfold x. rewrite <- csum_sub. eapply Rle_trans; [apply Cmod_csum|]. unfold s. rewrite <- rsum_scal. apply rsum_le. intros i Hi.
      replace (rf i * e i j - rx i * e i j)%C with ((rf i - rx i) * e i j)%C by ring. rewrite Cmod_mult. apply Rmult_le_compat_r; [apply Cmod_ge_0|apply Hr; auto]. }
    assert (G3 : gn * rsum (fun i => Cmod (rf i) * Cmod (e i j)) n <= gn * (101 / 100 * s j)) by (apply Rmult_le_compat_l; lra).
    unfold al. lra. }
  assert (Al : 0 <= al <= 202 / 10000) by (unfold al; lra).
  assert (D2 : forall j, (0 <= j < m)%Z -> Cmod (t1 j) <= 103 / 100 * s j + eta).
  { intros j Hj. pose proof (D1 j Hj). pose proof (Cmod_near (t1 j) (x j)). pose proof (X j). pose proof (S0 j).
    assert (al * s j <= 202 / 10000 * s j) by (apply Rmult_le_compat_r; lra). lra. }
  assert (Es : csum2 (fun i j => e i j * (rx i * cx j))%C n m = csum (fun j => x j * cx j)%C m).
  { unfold csum2. rewrite csum_swap. apply csum_ext. intros j Hj. unfold x. rewrite <- csum_scal_r. apply csum_ext. intros; ring. }
  rewrite Es. pose proof (Cmod_sub_le t2 (csum (fun j => t1 j * cf j)%C m) (csum (fun j => x j * cx j)%C m)) as P.
  assert (G : rsum (fun j => Cmod (t1 j) * Cmod (cf j)) m <= 105 / 100 * tot + 2 * IZR m * eta).
  { apply Rle_trans with (rsum (fun j => 105 / 100 * s j + 2 * eta) m).
    - apply rsum_le. intros j Hj. pose proof (D2 j Hj). pose proof (Cf j Hj). pose proof (S0 j).
      apply Rle_trans with ((103 / 100 * s j + eta) * (101 / 100)); [apply Rmult_le_compat; auto; apply Cmod_ge_0|lra].
    - rewrite rsum_add, rsum_scal, rsum_const by auto. rewrite T. lra. }
  assert (G2 : Cmod (csum (fun j => t1 j * cf j) m - csum (fun j => x j * cx j) m)%C <= (101 / 100 * al + kc) * tot + 101 / 100 * IZR m * eta).
  { rewrite <- csum_sub. eapply Rle_trans; [apply Cmod_csum|]. apply Rle_trans with (rsum (fun j => (101 / 100 * al + kc) * s j + 101 / 100 * eta) m).
    - apply rsum_le. intros j Hj. replace (t1 j * cf j - x j * cx j)%C with ((t1 j - x j) * cf j + x j * (cf j - cx j))%C by ring.
      eapply Rle_trans; [apply Cmod_triangle|]. rewrite !Cmod_mult. destruct (Hc j Hj) as [_ Cc]. pose proof (D1 j Hj) as Q1. pose proof (Cf j Hj) as Q2. pose proof (X j) as Q3. pose proof (S0 j) as Q4.
      assert (Cmod (t1 j - x j)%C * Cmod (cf j) <= (al * s j + eta) * (101 / 100)) by (apply Rmult_le_compat; auto; apply Cmod_ge_0).
      assert (Cmod (x j) * Cmod (cf j - cx j)%C <= s j * kc) by (apply Rmult_le_compat; auto; apply Cmod_ge_0). lra.
    - rewrite rsum_add, rsum_scal, rsum_const by auto. rewrite T. lra. }
  assert (M0 : 0 <= IZR m) by (apply IZR_le; auto). rewrite plus_IZR.
  assert (G3 : gm * rsum (fun j => Cmod (t1 j) * Cmod (cf j)) m <= gm * (105 / 100 * tot + 2 * IZR m * eta)) by (apply Rmult_le_compat_l; lra).
  assert (M1 : 0 <= IZR m * eta) by (apply Rmult_le_pos; auto).
  assert (gm * (2 * IZR m * eta) <= / 100 * (2 * IZR m * eta)) by (apply Rmult_le_compat_r; lra).
  assert (A1 : (101 / 100 * al + kc) * tot <= (105 / 100 * (kr + gn + kc)) * tot) by (apply Rmult_le_compat_r; unfold al; lra).
  assert (A2 : 0 <= (kr + gn + kc + gm) * tot) by (apply Rmult_le_pos; lra).
  lra.
Qed.
