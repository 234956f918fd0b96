(** Witnesses for the binary64 trial grids. *)
From Coq Require Import ZArith Reals Bool Lia Lra.
From Flocq Require Import Core BinarySingleNaN.
From Verif.Base Require Import F64.
From Verif.Model Require Import ShapesF SearchF.
From Verif.Spec Require Import SearchFSpec.
From Verif.Proofs Require Import F64P PlateSolvEx MaskGenFEx SearchFP.
Local Open Scope R_scope.

Definition tenth : f64 := fdiv (fofZ 1) (fofZ 10).
Lemma moderate_int z : (Z.abs z <= 2 ^ 50)%Z -> moderate (fofZ z) /\ fval (fofZ z) = IZR z.
Proof.
  intros H. destruct (fofZ_within 50 z ltac:(lia) H) as [F W]. split.
  - apply (within_le 50); [lia|split; auto].
  - apply fofZ_spec. lia.
Qed.
Lemma moderate_tenth : moderate tenth /\ bpow radix2 (-900) <= fval tenth.
Proof.
  assert (V : / 16 <= fval tenth <= 1) by (value tenth; lra). split.
  - split; [vm_compute; reflexivity|]. rewrite Rabs_pos_eq by lra. apply Rle_trans with (bpow radix2 0); [change (bpow radix2 0) with 1; lra|apply bpow_le; lia].
  - apply Rle_trans with (bpow radix2 (-4)); [apply bpow_le; lia|change (bpow radix2 (-4)) with (/ 16); lra].
Qed.
(** Five steps of a tenth about zero: the neighbours of the middle are not opposite. *)
Lemma steps_lopsided : fval (steps_f 5 tenth (fofZ 0) 1) <> - fval (steps_f 5 tenth (fofZ 0) 3).
Proof. value (steps_f 5 tenth (fofZ 0) 1). value (steps_f 5 tenth (fofZ 0) 3). rewrite opp_IZR. intros E. lra. Qed.
(** Twenty-three values from minus to plus a tenth: the middle one is not zero. *)
Lemma range_misses_zero : fval (range_f 23 tenth 11) <> 0.
Proof. value (range_f 23 tenth 11). intros E. lra. Qed.
