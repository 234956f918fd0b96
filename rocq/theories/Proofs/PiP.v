(** The double numpy.pi is within 2^-52 of pi. *)
From Coq Require Import ZArith Reals Lia Lra Machin Ratan QArith Qreals.
From Flocq Require Import Core BinarySingleNaN.
From Verif.Base Require Import F64.
From Verif.Model Require Import ShapesG.
Local Open Scope R_scope.

(** The terms of Machin's series 2 atan(1/3) + atan(1/7), over the rationals. *)
Definition qterm (n : nat) : Q :=
  let k := (2 * Z.of_nat n + 1)%Z in
  let t := ((2 # 1) * (1 # (Z.to_pos (k * 3 ^ k))) + (1 # Z.to_pos (k * 7 ^ k)))%Q in
  if Nat.even n then t else (- t)%Q.
Fixpoint qsum (n : nat) : Q := match n with O => qterm O | S n' => Qred (qsum n' + qterm n)%Q end.
Lemma qterm_ok n : Q2R (qterm n) = tg_alt PI_2_3_7_tg n.
Proof.
  assert (T : forall b : Z, (0 < b)%Z -> Q2R (1 # Z.to_pos ((2 * Z.of_nat n + 1) * b ^ (2 * Z.of_nat n + 1))) = Ratan_seq (/ IZR b) n).
  { intros b Hb. unfold Ratan_seq, Q2R. cbn [Qnum Qden]. assert (P : (0 < b ^ (2 * Z.of_nat n + 1))%Z) by (apply Z.pow_pos_nonneg; lia).
    rewrite Z2Pos.id by nia. rewrite mult_IZR. replace (2 * Z.of_nat n + 1)%Z with (Z.of_nat (2 * n + 1)) in * by lia.
    rewrite <- pow_IZR, INR_IZR_INZ, pow_inv.
    assert (IZR b ^ (2 * n + 1) <> 0) by (apply pow_nonzero, not_0_IZR; lia). assert (IZR (Z.of_nat (2 * n + 1)) <> 0) by (apply not_0_IZR; lia).
    field. split; auto. }
  unfold tg_alt, PI_2_3_7_tg. rewrite <- (T 3%Z), <- (T 7%Z) by lia. clear T. unfold qterm. cbv zeta.
  set (A := (1 # Z.to_pos ((2 * Z.of_nat n + 1) * 3 ^ (2 * Z.of_nat n + 1)))%Q). set (C := (1 # Z.to_pos ((2 * Z.of_nat n + 1) * 7 ^ (2 * Z.of_nat n + 1)))%Q).
  assert (Q2 : Q2R (2 # 1) = 2) by (unfold Q2R; cbn; lra).
  destruct (Nat.even n) eqn:E.
  - apply Nat.even_spec in E as [m ->]. rewrite pow_1_even, Q2R_plus, Q2R_mult, Q2. ring.
  - assert (O : Nat.odd n = true) by (unfold Nat.odd; rewrite E; reflexivity). apply Nat.odd_spec in O as [m ->].
    replace (2 * m + 1)%nat with (S (2 * m)) by lia. rewrite pow_1_odd, Q2R_opp, Q2R_plus, Q2R_mult, Q2. ring.
Qed.
Lemma qsum_ok n : Q2R (qsum n) = sum_f_R0 (tg_alt PI_2_3_7_tg) n.
Proof.
  induction n as [|n IH]; [apply qterm_ok|]. cbn [qsum sum_f_R0].
  rewrite (Qeq_eqR _ _ (Qred_correct _)), Q2R_plus, IH, qterm_ok. reflexivity.
Qed.
Lemma fpi_val : fval fpi = 7074237752028440 / 2 ^ 51.
Proof.
  assert (E : B2SF fpi = SpecFloat.S754_finite false 7074237752028440 (-51)) by (vm_compute; reflexivity).
  unfold fval. rewrite <- SF2R_B2SF, E. unfold SF2R, F2R. cbn [Fnum Fexp cond_Zopp bpow].
  replace (Z.pow_pos radix2 51) with (2 ^ 51)%Z by reflexivity. rewrite (pow_IZR 2 51). reflexivity.
Qed.
Lemma fpi_near : Rabs (fval fpi - PI) <= bpow radix2 (-52) /\ is_finite fpi = true.
Proof.
  split; [|vm_compute; reflexivity]. rewrite fpi_val. pose proof (PI_2_3_7_ineq 10) as [L U].
  rewrite <- qsum_ok in L, U.
  assert (L' : Q2R (7853981633974483 # 10000000000000000) <= Q2R (qsum (S (2 * 10)))) by (apply Qle_Rle, Qle_bool_iff; vm_compute; reflexivity).
  assert (U' : Q2R (qsum (2 * 10)) <= Q2R (78539816339744831 # 100000000000000000)) by (apply Qle_Rle, Qle_bool_iff; vm_compute; reflexivity).
  assert (El : Q2R (7853981633974483 # 10000000000000000) = 7853981633974483 / 10000000000000000) by reflexivity.
  assert (Eu : Q2R (78539816339744831 # 100000000000000000) = 78539816339744831 / 100000000000000000) by reflexivity.
  rewrite El in L'. rewrite Eu in U'. set (ql := Q2R (qsum (S (2 * 10)))) in *. set (qu := Q2R (qsum (2 * 10))) in *.
  change (bpow radix2 (-52)) with (/ IZR (2 ^ 52)). rewrite (pow_IZR 2 51). cbn [Z.of_nat Pos.of_succ_nat Pos.succ].
  change (2 ^ 51)%Z with 2251799813685248%Z. change (2 ^ 52)%Z with 4503599627370496%Z. apply Rabs_le. split; lra.
Qed.
