(** Calls of the binary64 shapes that return. *)
From Coq Require Import ZArith Reals Bool List Lia Lra.
From Flocq Require Import Core BinarySingleNaN.
From Verif.Base Require Import Py Arr F64.
From Verif.Model Require Import ShapesF ShapesG.
From Verif.Spec Require Import ShapesFSpec ShapesGSpec RefuseSpec.
From Verif.Proofs Require Import F64P F64N RefuseP ShapesGP ShapesGQ ShapesGR LibmRef.
Import ListNotations.
Local Open Scope R_scope.

Lemma returns {A} (x : res A) l : (forall e, x = Err e <-> refused l e) -> met l -> exists m, x = Ok m.
Proof.
  intros H Hm. destruct x as [m|e]; [eauto|]. exfalso. exact (refused_met l e (proj1 (H e) eq_refl) Hm).
Qed.
Lemma whole_int z : (Z.abs z <= 2 ^ 50)%Z -> whole (fofZ z) z.
Proof. intros Hz. destruct (fofZ_spec z ltac:(lia)) as [V F]. repeat split; auto. Qed.
Lemma pos_int z : (0 < z < 100)%Z -> ~ not_positive (fofZ z).
Proof.
  intros Hz. unfold not_positive. destruct (fofZ_spec z ltac:(lia)) as [V F]. rewrite fle_val by auto. rewrite V.
  rewrite Rle_bool_false; [discriminate|]. apply IZR_lt. lia.
Qed.
Lemma nonneg_int z : (0 <= z < 100)%Z -> ~ negative (fofZ z).
Proof.
  intros Hz. unfold negative. destruct (fofZ_spec z ltac:(lia)) as [V F]. rewrite flt_val by auto. rewrite V.
  rewrite Rlt_bool_false; [discriminate|]. apply IZR_le. lia.
Qed.
Lemma half_int z : (0 < z < 100)%Z -> ~ not_positive (fdiv (fofZ z) (fofZ 2)).
Proof.
  intros Hz. unfold not_positive. destruct (ShapesFP.half_within z ltac:(lia)) as [V [F _]]. rewrite fle_val by auto. rewrite V.
  rewrite Rle_bool_false; [discriminate|]. change (fval fzero) with 0. assert (0 < IZR z) by (apply IZR_lt; lia). lra.
Qed.
Lemma radius_int z : (0 < z < 100)%Z -> met (radius_needs libm_ref (fofZ z)).
Proof.
  intros Hz. destruct (fofZ_spec z ltac:(lia)) as [V F]. destruct (fofZ_spec (z * z) ltac:(nia)) as [V' F'].
  assert (E : fmul (fofZ z) (fofZ z) = fofZ (z * z)).
  { destruct (fmul_within 53 53 (fofZ z) (fofZ z) ltac:(lia) (fofZ_within 53 z ltac:(lia) ltac:(lia)) (fofZ_within 53 z ltac:(lia) ltac:(lia))) as [Vm [Fm _]].
    rewrite V, <- mult_IZR, rnd_IZR in Vm by nia. apply fin_eq; auto; [congruence|]. rewrite Vm. apply not_0_IZR. nia. }
  assert (P : lpow2 libm_ref (fofZ z) = Some (fofZ (z * z))) by (cbn [lpow2 libm_ref]; rewrite E, F, F'; reflexivity).
  unfold radius_needs. rewrite P. apply Forall_cons; [cbn [fst]; discriminate|]. apply Forall_cons; [|apply Forall_nil]. cbn [fst].
  intros p [= <-] [s Q]. apply (f_equal fval) in Q. rewrite V' in Q. cbn in Q. apply eq_IZR in Q. nia.
Qed.
Ltac needs := repeat (apply Forall_cons; [cbn [fst]|]); try apply Forall_nil; try lia; try (apply pos_int; lia); try (apply nonneg_int; lia).
Lemma ellipse_ex nx ny a b xo yo : (1 < nx)%Z -> (1 < ny)%Z -> (0 < a < 100)%Z -> (0 < b < 100)%Z ->
  exists m, ellipse_f libm_ref nx ny (fofZ a) (fofZ b) fzero xo yo 11 false = Ok m.
Proof.
  intros. eapply returns; [intros e; apply ellipse_f_refused|]. unfold ellipse_needs_f. apply Forall_app. split; [needs|].
  apply Forall_app. split; [apply radius_int; auto|]. apply Forall_app. split; [apply radius_int; auto|needs].
Qed.
Lemma rectangle_ex nx ny w h xo yo rot : (1 < nx)%Z -> (1 < ny)%Z -> (0 < w < 100)%Z -> (0 < h < 100)%Z ->
  exists m, rectangle_f libm_ref nx ny (fofZ w) (fofZ h) xo yo rot 11 true = Ok m.
Proof. intros. eapply returns; [intros e; apply rectangle_f_refused|]. needs. Qed.
Lemma segments_ex nx ny xo yo : (1 < nx)%Z -> (1 < ny)%Z ->
  exists m, annular_segments_f libm_ref 2 (fofZ 3) (fofZ 9) nx ny xo yo (fofZ 65) (fofZ 90) 11 (fofZ 0) = Ok m.
Proof. intros. eapply returns; [intros e; apply segments_f_refused|]. needs. vm_compute. reflexivity. Qed.
Lemma pupil_ex nx ny xo yo : (1 < nx)%Z -> (1 < ny)%Z ->
  (exists m, simple_pupil_f libm_ref nx ny xo yo (fofZ 4) (fofZ 16) [fofZ 120] (fofZ 1) 11 = Ok m) /\
  (exists m, simple_pupil_f libm_ref nx ny xo yo (fofZ 4) (fofZ 16) [fofZ 30; fofZ 120] (fofZ 1) 11 = Ok m).
Proof.
  intros. split; (eapply returns; [intros e; apply pupil_f_refused|]; needs;
    [vm_compute; discriminate|apply half_int; lia|intros _; apply half_int; lia|intros _ _; vm_compute; discriminate]).
Qed.
