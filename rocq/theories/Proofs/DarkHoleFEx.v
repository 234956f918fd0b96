(** Witnesses for the dark-hole shapes in binary64. *)
From Coq Require Import ZArith Reals Bool Lia Lra.
From Flocq Require Import Core BinarySingleNaN.
From Verif.Base Require Import Py Arr F64.
From Verif.Model Require Import ShapesF DarkHoleF.
From Verif.Spec Require Import ShapesSpec DarkHoleSpec ShapesFSpec DarkHoleFSpec.
From Verif.Proofs Require Import F64P ShapesFP ShapesFA ShapesFEx DarkHoleFP PlateSolvEx.
Local Open Scope R_scope.
Local Notation B := (bpow radix2).

Lemma quarter_ok z : (Z.abs z <= 2 ^ 23)%Z -> fval (fdiv (fofZ z) (fofZ 4)) = IZR z / 4 /\ grid_length 2 (fdiv (fofZ z) (fofZ 4)).
Proof.
  intros H. destruct (fdiv_int_within 23 (fofZ z) 4 ltac:(lia) (fofZ_within 23 z ltac:(lia) H) ltac:(lia)) as [V [F _]].
  destruct (fofZ_spec z ltac:(lia)) as [Vz _]. rewrite Vz in V. change 4%Z with (2 ^ 2)%Z in V at 2.
  rewrite (rnd_grid z 2 ltac:(lia) ltac:(lia)) in V. split; [exact V|]. split; [exact F|]. exists z. auto.
Qed.
Lemma fsub_nan_l x : fsub fnan x = fnan. Proof. destruct x; reflexivity. Qed.
Lemma fle_nan_l x : fle fnan x = false. Proof. reflexivity. Qed.
(** Comparisons with a number that is not one. *)
Lemma annulus_nan n m xo yo ri : (0 < n)%Z -> (0 < m)%Z -> flt ri fzero = false ->
  exists a, gen_annulus_f n m xo yo ri fnan = Ok a /\ nr a = n /\ nc a = m /\ forall i j, at2 a i j = false.
Proof.
  intros Hn Hm E. unfold gen_annulus_f. apply Z.ltb_lt in Hn, Hm. rewrite Hn, Hm, E, !flt_nan_l.
  eexists. split; [reflexivity|]. split; [reflexivity|]. split; [reflexivity|]. intros i j. cbn [at2]. cbv zeta.
  rewrite fle_nan_r. apply andb_false_r.
Qed.

(** The double nearest to the square root of two is larger than it. *)
Definition root2 : f64 := fsqrt (fofZ 2).
Ltac value x := erewrite (fval_sf x); [|vm_compute; reflexivity]; unfold SF2R, F2R; cbn [Fnum Fexp cond_Zopp];
  match goal with |- context[bpow radix2 (Zneg ?p)] => let v := eval vm_compute in (Z.pow_pos 2 p) in change (bpow radix2 (Zneg p)) with (/ IZR v)%R end.
Lemma root2_big : 2 < fval root2 ^ 2 /\ fval root2 <= 3.
Proof. value root2. cbn [pow]. lra. Qed.
Lemma annulus_tie : exists n m xo yo ri ro a i j,
  frame_upto 4 n m xo yo /\ double_within 4 ri /\ double_within 4 ro /\ 0 <= fval ri <= fval ro /\
  gen_annulus_f n m xo yo ri ro = Ok a /\ in_arr a i j /\ at2 a i j = true /\
  ~ in_shape (Annulus (fval xo) (fval yo) (fval ri) (fval ro)) (px m 0 j) (px n 0 i).
Proof.
  destruct root2_big as [L H]. assert (P : 0 <= fval root2) by (value root2; lra).
  assert (Z0 : double_within 4 fzero) by (split; [reflexivity|change (fval fzero) with 0; rewrite Rabs_R0; apply bpow_ge_0]).
  destruct (fofZ_spec 3 ltac:(lia)) as [V3 F3].
  assert (F2 : is_finite root2 = true) by (vm_compute; reflexivity).
  exists 6%Z, 6%Z, fzero, fzero, root2, (fofZ 3). rewrite annulus_checks by (auto; try lia; rewrite V3; lra).
  eexists _, 4%Z, 4%Z. split; [|split; [|split; [|split; [|split; [reflexivity|split; [|split]]]]]].
  - repeat split; try lia; auto; apply Z0.
  - split; auto. rewrite Rabs_right by lra. change (B 4) with 16. lra.
  - apply (fofZ_within 4); lia.
  - rewrite V3. lra.
  - unfold in_arr. cbn [nr nc]. lia.
  - vm_compute. reflexivity.
  - cbn [in_shape]. unfold annulus_set, px. change (4 - 6 / 2)%Z with 1%Z. change (fval fzero) with 0. intros [A _]. cbn [pow] in *. lra.
Qed.
