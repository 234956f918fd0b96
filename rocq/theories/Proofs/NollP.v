From Coq Require Import ZArith Reals List Bool Lia Lra Psatz Permutation.
From Flocq Require Import Core BinarySingleNaN.
From Verif.Base Require Import Py F64 Arr Sums Loop Trig Lstsq.
From Verif.Model Require Import Math Noll.
From Verif.Spec Require Import MathSpec ZernikeSpec.
From Verif.Proofs Require Import MathP.
Import ListNotations.
Ltac Zify.zify_post_hook ::= Z.div_mod_to_equations.
Open Scope Z_scope.

(** ** Index decoding *)
Lemma tri_even n : exists t, n * (n + 1) = 2 * t.
Proof.
  destruct (Z.Even_or_Odd n) as [[k ->]|[k ->]].
  - exists (k * (2 * k + 1)); ring.
  - exists ((2 * k + 1) * (k + 1)); ring.
Qed.
Definition tri (n : Z) := n * (n + 1) / 2.
Lemma tri_spec n : 2 * tri n = n * (n + 1).
Proof.
  unfold tri. destruct (tri_even n) as [t ->]. replace (2 * t / 2) with t by lia. reflexivity.
Qed.
Lemma tri_ex j : 1 <= j -> exists N, 1 <= N /\ tri (N - 1) < j <= tri N.
Proof.
  intros H.
  assert (G : forall k, 0 <= k -> forall j, 1 <= j <= k -> exists N, 1 <= N /\ tri (N - 1) < j <= tri N).
  { apply (natlike_ind (fun k => forall j, 1 <= j <= k -> exists N, 1 <= N /\ tri (N - 1) < j <= tri N)); [lia|].
    intros k Hk IH j' Hj. destruct (Z.eq_dec j' 1) as [->|Hn].
    - exists 1. pose proof (tri_spec 0). pose proof (tri_spec 1). cbn in *. lia.
    - destruct (IH (j' - 1)) as (N & HN & HT); [lia|].
      pose proof (tri_spec (N - 1)). pose proof (tri_spec N). pose proof (tri_spec (N + 1)).
      destruct (Z.eq_dec (j' - 1) (tri N)) as [E|E].
      + exists (N + 1). replace (N + 1 - 1) with N by lia. nia.
      + exists N. lia. }
  apply (G j); lia.
Qed.

Definition is_np1 (j N : Z) : Prop := 1 <= N /\ tri (N - 1) < j <= tri N.
Lemma is_np1_sq j N : is_np1 j N <-> 1 <= N /\ (2 * N - 1) ^ 2 + 8 <= 1 + 8 * j <= (2 * N + 1) ^ 2.
Proof.
  unfold is_np1. pose proof (tri_spec (N - 1)). pose proof (tri_spec N). nia.
Qed.
Lemma is_np1_sqrt j N : is_np1 j N ->
  (2 * IZR N - 1 < sqrt (1 + 8 * IZR j) <= 2 * IZR N + 1)%R.
Proof.
  intros H. apply is_np1_sq in H. destruct H as (HN & H1 & H2).
  apply IZR_le in HN, H1, H2. rewrite ?plus_IZR, ?mult_IZR in *.
  replace (IZR ((2 * N - 1) ^ 2)) with ((2 * IZR N - 1) * (2 * IZR N - 1))%R in H1
    by (rewrite Z.pow_2_r, mult_IZR, minus_IZR, mult_IZR; ring).
  replace (IZR ((2 * N + 1) ^ 2)) with ((2 * IZR N + 1) * (2 * IZR N + 1))%R in H2
    by (rewrite Z.pow_2_r, mult_IZR, plus_IZR, mult_IZR; ring).
  split.
  - rewrite <- (sqrt_square (2 * IZR N - 1)) by lra. apply sqrt_lt_1_alt. split; [|lra].
    pose proof (Rle_0_sqr (2 * IZR N - 1)) as K. unfold Rsqr in K. lra.
  - rewrite <- (sqrt_square (2 * IZR N + 1)) by lra. apply sqrt_le_1_alt. lra.
Qed.
Lemma Ztrunc_half N : 0 <= N -> Ztrunc (IZR N + / 2) = N.
Proof.
  intros H. apply IZR_le in H. rewrite Ztrunc_floor by lra. apply Zfloor_imp.
  rewrite plus_IZR. lra.
Qed.
Lemma noll_np1_eq j N : is_np1 j N -> noll_np1 j = N.
Proof.
  intros H. pose proof (is_np1_sqrt _ _ H) as [S1 S2]. unfold noll_np1.
  rewrite (Zceil_unique _ N) by lra. apply Ztrunc_half. destruct H; lia.
Qed.
Lemma noll_np1_spec j : 1 <= j -> is_np1 j (noll_np1 j).
Proof. intros H. destruct (tri_ex j H) as (N & HN). rewrite (noll_np1_eq j N); exact HN. Qed.
Lemma is_np1_unique j N N' : is_np1 j N -> is_np1 j N' -> N = N'.
Proof. intros A B. rewrite <- (noll_np1_eq _ _ A). apply noll_np1_eq; auto. Qed.

Lemma ntermsn_tri N : ntermsn N = tri (N - 1).
Proof. unfold ntermsn, tri. f_equal. ring. Qed.

Lemma noll_decode j : 1 <= j -> noll_index j (noll_n j) (noll_m j).
Proof.
  intros H. pose proof (noll_np1_spec j H) as (HN & H1 & H2).
  unfold noll_m, noll_n. rewrite ntermsn_tri. set (N := noll_np1 j) in *.
  pose proof (tri_spec (N - 1)) as T1. pose proof (tri_spec N) as T2.
  unfold noll_index. replace (N - 1 + 1) with N by lia.
  replace ((N - 1) * N / 2) with (tri (N - 1)) by (unfold tri; f_equal; ring).
  assert (Hr : 1 <= j - tri (N - 1) <= N) by nia.
  remember (j - tri (N - 1)) as r eqn:Er. assert (j = tri (N - 1) + r) by lia. clear Er.
  rewrite H0 in *. clear H1 H2 H0 H T1 T2. generalize (tri (N - 1)). intros t. split; [lia|]. split.
  - exists ((N - 1 - ((r - (N + 1) mod 2) / 2 * 2 + (N + 1) mod 2)) / 2). lia.
  - lia.
Qed.

Lemma noll_index_np1 j n m : noll_index j n m -> is_np1 j (n + 1).
Proof.
  intros (H1 & H2 & H3). unfold is_np1. replace (n + 1 - 1) with n by lia.
  pose proof (tri_spec n). pose proof (tri_spec (n + 1)). unfold tri in *.
  assert (tri n = n * (n + 1) / 2) by reflexivity. nia.
Qed.
Lemma noll_index_unique j n m n' m' : noll_index j n m -> noll_index j n' m' -> n = n' /\ m = m'.
Proof.
  intros A B. assert (E : n = n').
  { pose proof (is_np1_unique _ _ _ (noll_index_np1 _ _ _ A) (noll_index_np1 _ _ _ B)). lia. }
  split; auto. subst n'. destruct A as (A1 & [a A2] & A3), B as (B1 & [b B2] & B3). lia.
Qed.
Lemma noll_index_pos j n m : noll_index j n m -> 1 <= j.
Proof. intros (H1 & H2 & H3). assert (0 <= n * (n + 1) / 2) by (apply Z.div_pos; nia). lia. Qed.

Lemma noll_decode_iff j n m : 1 <= j -> (noll_n j = n /\ noll_m j = m <-> noll_index j n m).
Proof.
  intros H. split.
  - intros [<- <-]. apply noll_decode; auto.
  - intros A. eapply noll_index_unique; [apply noll_decode; auto|auto].
Qed.

(** ** binary64 evaluation *)
Lemma fmt_scaled k e : (-1074 <= e)%Z -> (Z.abs k < 2 ^ 53)%Z -> fmt64 (IZR k * bpow radix2 e)%R.
Proof.
  intros He Hk. apply generic_format_FLT. exists (Float radix2 k e); cbn; auto; lia.
Qed.
Lemma fmt_near_int k p : (0 <= k < 2 ^ 26)%Z -> (0 <= p <= 27)%Z ->
  fmt64 (IZR k + bpow radix2 (- p))%R.
Proof.
  intros Hk Hp.
  replace (IZR k + bpow radix2 (- p))%R with (IZR (k * 2 ^ p + 1) * bpow radix2 (- p))%R.
  - apply fmt_scaled; [lia|]. assert (2 ^ p <= 2 ^ 27) by (apply Z.pow_le_mono_r; lia).
    assert (0 < 2 ^ p) by (apply Z.pow_pos_nonneg; lia). nia.
  - rewrite plus_IZR, mult_IZR. change 2%Z with (radix_val radix2). rewrite IZR_Zpower by lia.
    rewrite Rmult_plus_distr_r, Rmult_assoc, <- bpow_plus.
    replace (p + - p)%Z with 0%Z by lia. cbn. ring.
Qed.
Lemma rnd_between lo x hi : fmt64 lo -> fmt64 hi -> (lo <= x <= hi)%R -> (lo <= rnd64 x <= hi)%R.
Proof.
  intros Hl Hh [A B]. split.
  - apply round_ge_generic; auto; [apply FLT_exp_valid; reflexivity|apply valid_rnd_N].
  - apply round_le_generic; auto; [apply FLT_exp_valid; reflexivity|apply valid_rnd_N].
Qed.
Lemma bpow_1024_big x : (Rabs x <= IZR (2 ^ 53))%R -> (Rabs x < bpow radix2 1024)%R.
Proof.
  intros H. eapply Rle_lt_trans; [exact H|]. change 2%Z with (radix_val radix2).
  rewrite IZR_Zpower by lia. apply bpow_lt. lia.
Qed.

Lemma noll_np1_f_ok j : (1 <= j <= 2 ^ 48)%Z -> noll_np1_f j = Ok (noll_np1 j).
Proof.
  intros Hj. destruct (tri_ex j (proj1 Hj)) as (N & HN).
  rewrite (noll_np1_eq j N HN).
  pose proof (proj1 (is_np1_sq j N) HN) as (HN1 & Hs1 & Hs2).
  assert (HNb : 2 * N + 1 < 2 ^ 26) by nia.
  assert (NR : (1 <= IZR N)%R) by (apply IZR_le; auto).
  destruct (fofZ_spec 1 ltac:(lia)) as [a1 a2]. destruct (fofZ_spec 2 ltac:(lia)) as [b1 b2].
  destruct (fofZ_spec 8 ltac:(lia)) as [c1 c2]. destruct (fofZ_spec j ltac:(lia)) as [d1 d2].
  destruct fhalf_spec as [h1 h2].
  (* 8.*moa *)
  assert (E1 : rnd64 (fval (fofZ 8) * fval (fofZ j)) = IZR (8 * j)).
  { rewrite c1, d1, <- mult_IZR. apply round_generic; [apply valid_rnd_N|]. apply fmt_IZR. lia. }
  destruct (fmul_spec (fofZ 8) (fofZ j) c2 d2) as [M1 M2].
  { rewrite E1. apply bpow_1024_big. rewrite <- abs_IZR. apply IZR_le. lia. }
  rewrite E1 in M1.
  (* 1. + *)
  assert (E2 : rnd64 (fval (fofZ 1) + fval (fmul (fofZ 8) (fofZ j))) = IZR (1 + 8 * j)).
  { rewrite a1, M1, <- plus_IZR. apply round_generic; [apply valid_rnd_N|]. apply fmt_IZR. lia. }
  destruct (fadd_spec (fofZ 1) (fmul (fofZ 8) (fofZ j)) a2 M2) as [P1 P2].
  { rewrite E2. apply bpow_1024_big. rewrite <- abs_IZR. apply IZR_le. lia. }
  rewrite E2 in P1. unfold noll_np1_f. set (w := fadd (fofZ 1) (fmul (fofZ 8) (fofZ j))) in *.
  (* sqrt *)
  assert (SQ : (2 * IZR N - 1 + bpow radix2 (- 24) <= sqrt (fval w) <= 2 * IZR N + 1)%R).
  { rewrite P1. apply IZR_le in Hs1, Hs2. rewrite ?plus_IZR, ?mult_IZR in *.
    replace (IZR ((2 * N - 1) ^ 2)) with ((2 * IZR N - 1) * (2 * IZR N - 1))%R in Hs1
      by (rewrite Z.pow_2_r, mult_IZR, minus_IZR, mult_IZR; ring).
    replace (IZR ((2 * N + 1) ^ 2)) with ((2 * IZR N + 1) * (2 * IZR N + 1))%R in Hs2
      by (rewrite Z.pow_2_r, mult_IZR, plus_IZR, mult_IZR; ring).
    assert (HB : (2 * IZR N + 1 <= IZR (2 ^ 26))%R).
    { change 1%R with (IZR 1). rewrite <- mult_IZR, <- plus_IZR. apply IZR_le. lia. }
    assert (Bq : (bpow radix2 (-24) * IZR (2 ^ 26) = 4)%R).
    { change (IZR (2 ^ 26)) with (bpow radix2 26). rewrite <- bpow_plus. cbn. lra. }
    assert (Bp : (0 < bpow radix2 (-24) <= 1)%R).
    { split; [apply bpow_gt_0|]. change 1%R with (bpow radix2 0). apply bpow_le. lia. }
    split.
    - rewrite <- (sqrt_square (2 * IZR N - 1 + bpow radix2 (- 24))) by lra.
      apply sqrt_le_1_alt. change (- (24))%Z with (-24)%Z in *.
      set (d := bpow radix2 (-24)) in *.
      assert (d * (2 * IZR N + 1) <= 4)%R by (rewrite <- Bq; apply Rmult_le_compat_l; lra).
      nra.
    - rewrite <- (sqrt_square (2 * IZR N + 1)) by lra. apply sqrt_le_1_alt. lra. }
  assert (B24 : forall p q : Z, (p <= q)%Z -> (bpow radix2 (- q) <= bpow radix2 (- p))%R)
    by (intros; apply bpow_le; lia).
  assert (F1 : fmt64 (2 * IZR N - 1 + bpow radix2 (- 24))%R).
  { replace (2 * IZR N - 1)%R with (IZR (2 * N - 1)) by (rewrite minus_IZR, mult_IZR; ring).
    apply (fmt_near_int _ 24); lia. }
  assert (F2 : fmt64 (2 * IZR N + 1)%R).
  { replace (2 * IZR N + 1)%R with (IZR (2 * N + 1)) by (rewrite plus_IZR, mult_IZR; ring).
    apply fmt_IZR; lia. }
  pose proof (rnd_between _ _ _ F1 F2 SQ) as RS. rewrite <- fsqrt_spec in RS.
  assert (FS : is_finite (fsqrt w) = true).
  { destruct (Bsqrt_correct prec emax Hprec Hmax mode_NE w) as (_ & K & _).
    unfold fsqrt. rewrite K. clear - P1 P2 Hj. destruct w as [s|s| |s mm e Bd]; auto; try discriminate.
    destruct s; auto. exfalso. unfold fval in P1. cbn [B2R] in P1.
    assert (F2R (Float radix2 (cond_Zopp true (Zpos mm)) e) < 0)%R by (apply F2R_lt_0; reflexivity).
    assert (0 < IZR (1 + 8 * j))%R by (apply IZR_lt; lia). lra. }
  (* - 1. *)
  assert (SB : (2 * IZR N - 2 + bpow radix2 (- 24) <= fval (fsqrt w) - fval (fofZ 1) <= 2 * IZR N)%R)
    by (rewrite a1; lra).
  assert (F3 : fmt64 (2 * IZR N - 2 + bpow radix2 (- 24))%R).
  { replace (2 * IZR N - 2)%R with (IZR (2 * N - 2)) by (rewrite minus_IZR, mult_IZR; ring).
    apply (fmt_near_int _ 24); lia. }
  assert (F4 : fmt64 (2 * IZR N)%R).
  { replace (2 * IZR N)%R with (IZR (2 * N)) by (rewrite mult_IZR; ring). apply fmt_IZR; lia. }
  pose proof (rnd_between _ _ _ F3 F4 SB) as RB.
  assert (BP : (0 < bpow radix2 (-24))%R) by apply bpow_gt_0. change (- (24))%Z with (-24)%Z in *.
  assert (HB : (2 * IZR N + 1 <= IZR (2 ^ 26))%R).
  { change 1%R with (IZR 1). rewrite <- mult_IZR, <- plus_IZR. apply IZR_le. lia. }
  assert (H53 : (IZR (2 ^ 26) <= IZR (2 ^ 53))%R) by (apply IZR_le; lia).
  destruct (fsub_spec (fsqrt w) (fofZ 1) FS a2) as [S1 S2].
  { apply bpow_1024_big. rewrite Rabs_right; lra. }
  rewrite <- S1 in RB. set (u := fsub (fsqrt w) (fofZ 1)) in *.
  (* / 2. *)
  assert (DB : (IZR N - 1 + bpow radix2 (- 25) <= fval u / fval (fofZ 2) <= IZR N)%R).
  { rewrite b1. replace (bpow radix2 (- 25)) with (bpow radix2 (-24) / 2)%R.
    - lra.
    - change (-24)%Z with (-25 + 1)%Z. rewrite bpow_plus_1. change (IZR radix2) with 2%R. field. }
  assert (F5 : fmt64 (IZR N - 1 + bpow radix2 (- 25))%R).
  { replace (IZR N - 1)%R with (IZR (N - 1)) by (rewrite minus_IZR; ring). apply (fmt_near_int _ 25); lia. }
  assert (F6 : fmt64 (IZR N)) by (apply fmt_IZR; lia).
  pose proof (rnd_between _ _ _ F5 F6 DB) as RD.
  assert (BP' : (0 < bpow radix2 (- 25))%R) by apply bpow_gt_0.
  destruct (fdiv_spec u (fofZ 2) S2) as [D1 D2]; [rewrite b1; lra| |].
  { apply bpow_1024_big. rewrite Rabs_right; lra. }
  rewrite <- D1 in RD. set (v := fdiv u (fofZ 2)) in *.
  (* ceil *)
  destruct (fceil_spec v) as [C1 C2]. rewrite (Zceil_unique (fval v) N) in C1 by lra.
  (* + 0.5 *)
  assert (E3 : rnd64 (fval (fceil v) + fval fhalf) = (IZR N + / 2)%R).
  { rewrite C1, h1. apply round_generic; [apply valid_rnd_N|].
    change (/ 2)%R with (bpow radix2 (-1)). apply (fmt_near_int _ 1); lia. }
  destruct (fadd_spec (fceil v) fhalf) as [A1 A2]; [congruence|exact h2| |].
  { rewrite E3. apply bpow_1024_big. rewrite Rabs_right; lra. }
  rewrite E3 in A1. unfold int_of_float.
  assert (T : Btrunc (fadd (fceil v) fhalf) = N).
  { apply eq_IZR. rewrite (Btrunc_correct prec emax Hmax), round_FIX0.
    change (B2R (fadd (fceil v) fhalf)) with (fval (fadd (fceil v) fhalf)). rewrite A1.
    rewrite Ztrunc_half by lia. reflexivity. }
  destruct (fadd (fceil v) fhalf); try discriminate; rewrite T; reflexivity.
Qed.
