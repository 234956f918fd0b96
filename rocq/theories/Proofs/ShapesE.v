(** Shapes rejected for their arguments. *)
From Coq Require Import ZArith Bool List Reals Lra Lia.
From Verif.Base Require Import Py Arr Sums.
From Verif.Model Require Import Fits Shapes.
From Verif.Proofs Require Import FitsP ShapesP.
Import ListNotations.
Open Scope Z_scope.

Lemma ellipse_err nx ny rx ry rot xo yo ns isDark :
  (nx <= 0 \/ ny <= 0 \/ (rx <= 0)%R \/ (ry <= 0)%R \/ ns <= 0 -> ellipse nx ny rx ry rot xo yo ns isDark = Err TypeError) /\
  (nx = 1 \/ ny = 1 -> 0 < nx -> 0 < ny -> (0 < rx)%R -> (0 < ry)%R -> 0 < ns ->
     ellipse nx ny rx ry rot xo yo ns isDark = Err IndexError).
Proof.
  split.
  - intros H. unfold ellipse. destruct (Z.ltb_spec 0 nx); [|reflexivity]. destruct (Z.ltb_spec 0 ny); [|reflexivity].
    destruct (Rltb 0 rx) eqn:R0; [|reflexivity]. apply Rltb_iff in R0.
    destruct (Rltb 0 ry) eqn:R1; [|reflexivity]. apply Rltb_iff in R1.
    destruct (Z.ltb_spec 0 ns); [|reflexivity]. exfalso. destruct H as [H|[H|[H|[H|H]]]]; try lia; lra.
  - intros Hn H1 H2 H3 H4 H5. unfold ellipse.
    rewrite (proj2 (Z.ltb_lt 0 nx)), (proj2 (Z.ltb_lt 0 ny)), (proj2 (Z.ltb_lt 0 ns)),
      (proj2 (Rltb_iff 0 rx)), (proj2 (Rltb_iff 0 ry)) by auto. cbn [guard bind].
    destruct (Z_le_gt_dec nx 1) as [L|L]; [rewrite pixel_dx_err by auto; reflexivity|].
    rewrite pixel_dx_ok by lia. cbn [bind].
    rewrite (proj2 (Z.ltb_ge 1 ny)) by lia. reflexivity.
Qed.
Lemma rectangle_bad nx ny w h xo yo rot ns isDark :
  (nx <= 0 \/ ny <= 0 \/ (w <= 0)%R \/ (h <= 0)%R \/ ns <= 0 -> rectangle nx ny w h xo yo rot ns isDark = Err TypeError) /\
  (nx = 1 -> 0 < ny -> (0 < w)%R -> (0 < h)%R -> 0 < ns -> rectangle nx ny w h xo yo rot ns isDark = Err IndexError).
Proof.
  split.
  - intros H. unfold rectangle. destruct (Z.ltb_spec 0 nx); [|reflexivity]. destruct (Z.ltb_spec 0 ny); [|reflexivity].
    destruct (Rltb 0 w) eqn:R0; [|reflexivity]. apply Rltb_iff in R0.
    destruct (Rltb 0 h) eqn:R1; [|reflexivity]. apply Rltb_iff in R1.
    destruct (Z.ltb_spec 0 ns); [|reflexivity]. exfalso. destruct H as [H|[H|[H|[H|H]]]]; try lia; lra.
  - intros -> H2 H3 H4 H5. unfold rectangle.
    rewrite (proj2 (Z.ltb_lt 0 ny)), (proj2 (Z.ltb_lt 0 ns)), (proj2 (Rltb_iff 0 w)), (proj2 (Rltb_iff 0 h)) by auto.
    reflexivity.
Qed.
Lemma segments_bad_args nSeg rIn rOut nx ny xo yo angOpen angRot ns dTheta :
  (nSeg <> 1 /\ nSeg <> 2) \/ (rIn <= 0)%R \/ (rOut <= 0)%R \/ nx <= 0 \/ ny <= 0 \/ (angOpen < 0)%R \/ ns <= 0 \/ (dTheta < 0)%R ->
  annular_segments nSeg rIn rOut nx ny xo yo angOpen angRot ns dTheta = Err TypeError.
Proof.
  intros H. unfold annular_segments.
  destruct ((nSeg =? 1) || (nSeg =? 2)) eqn:N; [|reflexivity].
  destruct (Rltb 0 rIn) eqn:R0; [|reflexivity]. apply Rltb_iff in R0.
  destruct (Rltb 0 rOut) eqn:R1; [|reflexivity]. apply Rltb_iff in R1.
  destruct (Z.ltb_spec 0 nx); [|reflexivity]. destruct (Z.ltb_spec 0 ny); [|reflexivity].
  destruct (Rleb 0 angOpen) eqn:R2; [|reflexivity]. apply Rleb_iff in R2.
  destruct (Z.ltb_spec 0 ns); [|reflexivity].
  destruct (Rleb 0 dTheta) eqn:R3; [|reflexivity]. apply Rleb_iff in R3.
  exfalso. apply orb_true_iff in N. rewrite !Z.eqb_eq in N.
  destruct H as [H|[H|[H|[H|[H|[H|[H|H]]]]]]]; try lia; lra.
Qed.
Lemma simple_pupil_column ny xo yo dI dO angs width ns :
  0 < ny -> (0 <= dI < dO)%R -> (0 <= width)%R -> 0 < ns ->
  simple_pupil 1 ny xo yo dI dO angs width ns = Err IndexError.
Proof.
  intros H1 H2 H3 H4. unfold simple_pupil.
  rewrite (proj2 (Z.ltb_lt 0 ny)), (proj2 (Z.ltb_lt 0 ns)), (proj2 (Rleb_iff 0 dI)), (proj2 (Rltb_iff 0 dO)),
    (proj2 (Rleb_iff 0 width)), (proj2 (Rltb_iff dI dO)) by (auto; lra).
  cbn [guard bind Z.ltb Z.compare].
  rewrite (proj2 (circle_err 1 ny (dO / 2) xo yo ns false)) by (auto; lra). reflexivity.
Qed.
