(** Witnesses for the binary64 circle. *)
From Coq Require Import ZArith Reals Bool Lia Lra.
From Flocq Require Import Core BinarySingleNaN.
From Verif.Base Require Import Py Arr Sums F64.
From Verif.Model Require Import ShapesF.
From Verif.Spec Require Import ShapesFSpec.
From Verif.Proofs Require Import F64P ShapesFP ShapesFQ ShapesFA.
Local Open Scope R_scope.
Local Notation B := (bpow radix2).

Lemma circle_f_err nx ny r xo yo ns isDark :
  ((nx <= 0)%Z \/ (ny <= 0)%Z \/ fle r fzero = true \/ (ns <= 0)%Z -> circle_f nx ny r xo yo ns isDark = Err TypeError) /\
  (nx = 1%Z -> (0 < ny)%Z -> fle r fzero = false -> (0 < ns)%Z -> circle_f nx ny r xo yo ns isDark = Err IndexError).
Proof.
  unfold circle_f. split.
  - intros H. destruct (0 <? nx)%Z eqn:E1; [|reflexivity]. destruct (0 <? ny)%Z eqn:E2; [|reflexivity].
    destruct (fle r fzero); [reflexivity|]. destruct (0 <? ns)%Z eqn:E3; [|reflexivity].
    exfalso. apply Z.ltb_lt in E1, E2, E3. destruct H as [H|[H|[H|H]]]; lia.
  - intros -> H E H'. apply Z.ltb_lt in H, H'. rewrite H, H', E. reflexivity.
Qed.
Definition tenth73 : f64 := fdiv (fofZ 73) (fofZ 10).
Lemma tenth73_ok : double_within 6 tenth73 /\ 0 < fval tenth73.
Proof.
  destruct (fdiv_int_within 7 (fofZ 73) 10 ltac:(lia) (fofZ_within 7 73 ltac:(lia) ltac:(lia)) ltac:(lia)) as [V W].
  destruct (fofZ_spec 73 ltac:(lia)) as [V73 _]. rewrite V73 in V.
  assert (L : 7 <= fval tenth73 <= 8).
  { unfold tenth73. rewrite V. split.
    - rewrite <- (rnd_IZR 7) by lia. apply rnd_mono. lra.
    - rewrite <- (rnd_IZR 8) by lia. apply rnd_mono. lra. }
  split; [|lra]. split; [apply W|]. rewrite Rabs_right by lra. change (B 6) with 64. lra.
Qed.
Lemma args_ex : circle_args_upto 6 40 41 tenth73 tenth73 (fofZ (-3)) 11.
Proof.
  destruct tenth73_ok as [W P]. repeat split; try lia; auto; try apply W.
  - apply (fofZ_within 6 (-3)); lia.
Qed.
Lemma args_whole a b : (-30 <= a <= 30)%Z -> (-30 <= b <= 30)%Z ->
  circle_args 40 41 tenth73 (fofZ a) (fofZ b) 11 /\ whole_offsets (fofZ a) (fofZ b) a b.
Proof.
  intros Ha Hb. destruct tenth73_ok as [W P].
  split; [|repeat split; try lia; apply fofZ_spec; lia].
  repeat split; try lia; auto; try apply W.
  - eapply Rle_trans; [apply W|]. apply bpow_le; lia.
  - apply (fofZ_within 6 a); lia.
  - eapply Rle_trans; [apply (fofZ_within 6 a); lia|]. apply bpow_le; lia.
  - apply (fofZ_within 6 b); lia.
  - eapply Rle_trans; [apply (fofZ_within 6 b); lia|]. apply bpow_le; lia.
Qed.

(** A radius that is not a number. *)
Lemma fadd_nan x : fadd fnan x = fnan. Proof. destruct x; reflexivity. Qed.
Lemma fsub_nan x : fsub fnan x = fnan. Proof. destruct x; reflexivity. Qed.
Lemma flt_nan_l x : flt fnan x = false. Proof. reflexivity. Qed.
Lemma flt_nan_r x : flt x fnan = false. Proof. destruct x as [[]|[]| |[]]; reflexivity. Qed.
Lemma fle_nan_r x : fle x fnan = false. Proof. destruct x as [[]|[]| |[]]; reflexivity. Qed.
Lemma circle_f_nan nx ny xo yo ns isDark : (1 < nx)%Z -> (0 < ny)%Z -> (1 <= ns <= 2 ^ 26)%Z ->
  exists m, circle_f nx ny fnan xo yo ns isDark = Ok m /\ nr m = ny /\ nc m = nx /\
  forall i j, in_arr m i j -> fval (at2 m i j) = if isDark then 1 else 0.
Proof.
  intros Hx Hy Hn. unfold circle_f.
  rewrite guard_true by (apply Z.ltb_lt; lia). rewrite guard_true by (apply Z.ltb_lt; lia). rewrite guard_true by reflexivity.
  rewrite guard_true by (apply Z.ltb_lt; lia). rewrite guard_true by (apply Z.ltb_lt; lia).
  cbv zeta. eexists. split; [reflexivity|]. split; [reflexivity|]. split; [reflexivity|]. intros i j _. cbn [at2].
  rewrite fadd_nan, fsub_nan, flt_nan_l, flt_nan_r.
  assert (C : inside_count_f fnan ns (axis_f nx xo j) (axis_f ny yo i) = 0%Z).
  { unfold inside_count_f. transitivity (zcount (fun _ _ => false) ns).
    - apply gsum_ext. intros p _. apply gsum_ext. intros q _. rewrite fle_nan_r. reflexivity.
    - apply eq_IZR. rewrite zcount_R. apply rsum2_zero. }
  rewrite C. destruct (frac_val 0 ns Hn ltac:(nia)) as [V F]. unfold Rdiv in V. rewrite Rmult_0_l, rnd_0 in V.
  destruct isDark; [|exact V]. destruct (dark_val _ F ltac:(rewrite V; lra)) as [V' _]. rewrite V', V, Rminus_0_r.
  exact (rnd_IZR 1 ltac:(lia)).
Qed.
