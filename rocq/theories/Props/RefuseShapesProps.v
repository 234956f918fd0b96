(** C91, continued: the mask shapes, propagation with a given phase factor and the masked fits refuse malformed inputs with the
    exception of the first requirement that fails, and accept all others. *)
From Coq Require Import ZArith Bool List String Reals Lra Lia.
From Flocq Require Import Core.
From Coquelicot Require Import Complex.
From Verif.Base Require Import Py Arr Vec.
From Verif.Model Require Import Fits Noll Shapes RectProper Fresnel.
From Verif.Spec Require Import RefuseSpec RefuseDmSpec RefuseShapesSpec.
From Verif.Proofs Require Import RefuseShapes.
Import ListNotations.
Open Scope Z_scope.

Theorem C91_circle : forall nx ny r xo yo ns d e, circle nx ny r xo yo ns d = Err e <-> refused (circle_needs nx ny r ns) e.
Proof. exact circle_refused. Qed.
Print Assumptions C91_circle.
Theorem C91_ellipse : forall nx ny rx ry rot xo yo ns d e,
  ellipse nx ny rx ry rot xo yo ns d = Err e <-> refused (ellipse_needs nx ny rx ry ns) e.
Proof. exact ellipse_refused. Qed.
Print Assumptions C91_ellipse.
Theorem C91_rectangle : forall nx ny w h xo yo rot ns d e,
  rectangle nx ny w h xo yo rot ns d = Err e <-> refused (rectangle_needs nx ny w h ns) e.
Proof. exact rectangle_refused. Qed.
Print Assumptions C91_rectangle.
(** The exactly computed rectangle has no trouble with a single column. *)
Theorem C91_rect_proper : forall nx ny w h xo yo rot ns d e,
  rect_proper nx ny w h xo yo rot ns d = Err e <-> refused (two_lengths nx ny w h ns) e.
Proof. exact rect_proper_refused. Qed.
Print Assumptions C91_rect_proper.
Theorem C91_annular_segments : forall nSeg rIn rOut nx ny xo yo angOpen angRot ns dTheta e,
  annular_segments nSeg rIn rOut nx ny xo yo angOpen angRot ns dTheta = Err e <->
  refused (segments_needs nSeg rIn rOut nx ny angOpen angRot ns dTheta) e.
Proof. exact segments_refused. Qed.
Print Assumptions C91_annular_segments.
Theorem C91_simple_pupil : forall nx ny xo yo dI dO angs width ns e,
  simple_pupil nx ny xo yo dI dO angs width ns = Err e <-> refused (pupil_needs nx ny dI dO width ns) e.
Proof. exact simple_pupil_refused. Qed.
Print Assumptions C91_simple_pupil.
Theorem C91_fresnelprop_fp : forall a z nx fp e, wf a -> (fresnelprop_fp a z nx fp = Err e <-> refused (fresnel_fp_needs a z nx fp) e).
Proof. exact fresnel_fp_refused. Qed.
Print Assumptions C91_fresnelprop_fp.
Theorem C91_remove_piston_tip_tilt : forall lstsq a m e,
  remove_piston_tip_tilt lstsq a m = Err e <-> refused (flatten_needs a m (Ztrunc (fold_right Rplus 0%R (elements m)))) e.
Proof. exact ptt_refused. Qed.
Print Assumptions C91_remove_piston_tip_tilt.
(** Here the only other exception is the one for a degenerate surface. *)
Theorem C91_find_optimum_2d : forall lstsq xs ys a m e,
  let needs := optimum_needs xs ys a m (fold_right Z.add 0 (map Ztrunc (elements m))) in
  (refused needs e -> find_optimum_2d lstsq xs ys a m = Err e) /\
  (find_optimum_2d lstsq xs ys a m = Err e -> refused needs e \/ (met needs /\ e = Custom "QuadraticException")).
Proof. exact opt2_refused. Qed.
Print Assumptions C91_find_optimum_2d.
Theorem C91_fit_zernikes : forall lstsq w u n b dx dy e,
  fit_zernikes lstsq w u n b dx dy = Err e <-> refused (fit_zernikes_needs w u n b) e.
Proof. exact fit_zernikes_refused. Qed.
Print Assumptions C91_fit_zernikes.

Example C91_shapes_ex : annular_segments 1 1 2 4 4 0 0 90 360 3 0 = Err UnboundLocalError /\ ellipse 4 1 1 1 0 0 0 3 true = Err IndexError /\
  simple_pupil 1 4 0 0 1 2 [] 0 3 = Err IndexError /\ simple_pupil 1 4 0 0 2 2 [] 0 3 = Err TypeError.
Proof.
  repeat split.
  - apply C91_annular_segments. unfold segments_needs, each. cbn [map app]. do 9 (apply refused_later; [lra || lia|]). apply refused_here. lra.
  - apply C91_ellipse. unfold ellipse_needs, two_lengths, each. cbn [map app]. do 6 (apply refused_later; [lra || lia|]). apply refused_here. lia.
  - apply C91_simple_pupil. unfold pupil_needs, each. cbn [map app]. do 7 (apply refused_later; [lra || lia|]). apply refused_here. lia.
  - apply C91_simple_pupil. unfold pupil_needs, each. cbn [map app]. do 6 (apply refused_later; [lra || lia|]). apply refused_here. lra.
Qed.
Example C91_fp_ex : wf (afull 3 3 (RtoC 0)) /\ fresnelprop_fp (afull 3 3 (RtoC 0)) 1 4 (afull 3 3 (RtoC 0)) = Err ValueError /\
  (exists o, fresnelprop_fp (afull 3 3 (RtoC 0)) 1 4 (afull 1 4 (RtoC 0)) = Ok o).
Proof.
  assert (W : wf (afull 3 3 (RtoC 0))) by (split; cbn; lia). split; [exact W|]. split.
  - apply C91_fresnelprop_fp; auto. unfold fresnel_fp_needs. cbn [map fst snd]. apply refused_later; [lia|]. apply refused_here. cbn. intros [Q|[Q _]]; [lra|lia].
  - destruct (fresnelprop_fp (afull 3 3 (RtoC 0)) 1 4 (afull 1 4 (RtoC 0))) as [o|e] eqn:E; [eauto|]. apply C91_fresnelprop_fp in E; auto.
    exfalso. revert E. unfold fresnel_fp_needs. cbn [map fst snd nr nc afull]. intros E. inversion E as [? ? ? N|? ? ? ? Y E1]; subst; [lia|].
    inversion E1 as [? ? ? N|? ? ? ? Y1 E2]; subst; [apply N; right; lia|]. inversion E2 as [? ? ? N|? ? ? ? Y2 E3]; subst; [apply N; right; lia|].
    inversion E3 as [? ? ? N|? ? ? ? Y3 E4]; subst; [apply N; right; lia|inversion E4].
Qed.
Example C91_fits_ex : remove_piston_tip_tilt (fun _ _ _ _ _ => 0%R) (afull 2 2 1%R) (afull 2 2 2%R) = Err ValueError.
Proof.
  apply C91_remove_piston_tip_tilt. unfold flatten_needs, each. cbn [map]. apply refused_later; [split; reflexivity|]. apply refused_here.
  replace (Ztrunc _) with 8.
  - intros [Q|(l & [ND Hl] & Q)]; [lia|]. assert (G : (List.length l <= List.length (indices 2 2))%nat).
    { apply NoDup_incl_length; auto. intros [i j] Hi. apply Hl in Hi as [[H1 H2] _]. apply in_indices. cbn in *. lia. }
    assert (L4 : List.length (indices 2 2) = 4%nat) by reflexivity. rewrite L4 in G. lia.
  - replace (fold_right Rplus 0%R (elements (afull 2 2 2%R))) with 8%R; [symmetry; apply (Ztrunc_IZR 8)|].
    change (elements (afull 2 2 2%R)) with [2%R; 2%R; 2%R; 2%R]. cbn [fold_right]. ring.
Qed.

(** C21. dmhtoph returns a surface only for arguments meeting every requirement. *)
From Verif.Model Require Import Dm.
From Verif.Spec Require Import DmSpec.
Theorem C21_accepts_only : forall ops nrow ncol d nact inf ppd cx cy dx dy th fx out, wf inf ->
  dmhtoph ops nrow ncol d nact inf ppd cx cy dx dy th fx = Ok out ->
  dm_args nrow ncol d nact inf ppd cx cy /\ 4 <= (nact - 1) * ppd + nr inf.
Proof. exact dmhtoph_only. Qed.
Print Assumptions C21_accepts_only.
