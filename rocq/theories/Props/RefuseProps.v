(** C91: malformed files and arguments are refused with the exception of the first requirement they break. *)
From Coq Require Import ZArith Bool List String Reals Lra Lia.
From Verif.Base Require Import Py Arr Lstsq.
From Verif.Model Require Import Yaml DarkHole FocalFit Occastro DmReg.
From Verif.Model Require Fresnel PsfFit Conjugate.
From Verif.Spec Require Import DarkHoleSpec FitsSpec OccastroSpec RefuseSpec.
From Verif.Proofs Require Import RefuseP FocalFitP RefuseR.
Import ListNotations.
Open Scope string_scope.
Open Scope Z_scope.

Theorem C91_spots : forall img rot xo yo tv gv,
  (forall e, calc_offset_from_spots img rot xo yo tv gv = Err e <-> refused (spots_needs img tv gv) e) /\
  ((exists o, calc_offset_from_spots img rot xo yo tv gv = Ok o) <-> met (spots_needs img tv gv)).
Proof. exact (fun img rot xo yo tv gv => exactly _ _ (spots_refused img rot xo yo tv gv)). Qed.
Print Assumptions C91_spots.
Theorem C91_bowtie : forall img xo yo tv,
  (forall e, calc_bowtie_offsets img xo yo tv = Err e <-> refused (bowtie_needs img tv) e) /\
  ((exists o, calc_bowtie_offsets img xo yo tv = Ok o) <-> met (bowtie_needs img tv)).
Proof. exact (fun img xo yo tv => exactly _ _ (bowtie_refused img xo yo tv)). Qed.
Print Assumptions C91_bowtie.
(** The searches can also fail on the data, when a fitted quadratic has no optimum. *)
Theorem C91_star_location : forall lstsq img xg yg tv e, is_lstsq_oracle lstsq ->
  (refused (locate_needs img "spotSepPix" tv) e -> calc_star_location_from_spots lstsq img xg yg tv = Err e) /\
  (calc_star_location_from_spots lstsq img xg yg tv = Err e -> e = Custom "QuadraticException" \/ refused (locate_needs img "spotSepPix" tv) e).
Proof. exact star_refused. Qed.
Print Assumptions C91_star_location.
Theorem C91_spot_separation : forall lstsq img xo yo tv e, is_lstsq_oracle lstsq ->
  (refused (locate_needs img "spotSepGuessPix" tv) e -> calc_spot_separation lstsq img xo yo tv = Err e) /\
  (calc_spot_separation lstsq img xo yo tv = Err e -> e = Custom "QuadraticException" \/ refused (locate_needs img "spotSepGuessPix" tv) e).
Proof. exact sep_refused. Qed.
Print Assumptions C91_spot_separation.
Theorem C91_dark_hole : forall v e, gen_dark_hole v = Err e <-> hole_refused v e.
Proof. exact hole_refused_iff. Qed.
Print Assumptions C91_dark_hole.
(** Registration files: later failures, in the calibration data, are not listed here. *)
Theorem C91_translation_clocking : forall lstsq lstsq1 ops getdata amp0 ph0 amp1 ph1 usable dm dV xo yo dmv fitv lam e,
  refused (map_needs amp0 ph0 amp1 ph1 usable dm dV lam ++ fit_needs fitv ++ registration_needs dmv dm) e ->
  calc_translation_clocking lstsq lstsq1 ops getdata amp0 ph0 amp1 ph1 usable dm dV xo yo dmv fitv lam = Err e.
Proof. exact registration_translation_refused. Qed.
Print Assumptions C91_translation_clocking.
Theorem C91_scale : forall lstsq ops getdata amp0 ph0 amp1 ph1 usable dm dV dmv fitv lam xo yo cl e,
  refused (map_needs amp0 ph0 amp1 ph1 usable dm dV lam ++ scale_needs fitv ++ registration_needs dmv dm) e ->
  calc_scale lstsq ops getdata amp0 ph0 amp1 ph1 usable dm dV dmv fitv lam xo yo cl = Err e.
Proof. exact registration_scale_refused. Qed.
Print Assumptions C91_scale.

(** Settings of psffit, then its images. *)
Theorem C91_psffit_settings : forall shift src tgt v e, refused (psf_settings_needs v) e -> PsfFit.psffit shift src tgt v = Err e.
Proof. exact psffit_settings. Qed.
Print Assumptions C91_psffit_settings.
Theorem C91_psffit_shapes : forall shift src tgt v, met (psf_settings_needs v) -> ~ (nr src = nr tgt /\ nc src = nc tgt) ->
  PsfFit.psffit shift src tgt v = Err ValueError.
Proof. exact psffit_shapes. Qed.
Print Assumptions C91_psffit_shapes.
(** The phase factor of a free-space propagation. *)
Theorem C91_get_fp : forall lam z nx ppm e, Fresnel.get_fp lam z nx ppm = Err e <-> refused (get_fp_needs lam z nx ppm) e.
Proof. exact get_fp_refused. Qed.
Print Assumptions C91_get_fp.
(** flatten, for every optimiser, spline and solver. *)
Theorem C91_flatten : forall ops cmd1 cmd2 fcm useDMs useFCM high lam amp ph diam xo yo dm1 dm2 p e,
  refused (flatten_needs cmd1 cmd2 lam diam (Conjugate.f_maxNoll p) (Conjugate.f_nIterSmooth p) (Conjugate.f_nBin p) (Conjugate.f_arrayExtFac p)) e ->
  Conjugate.flatten ops cmd1 cmd2 fcm useDMs useFCM high lam amp ph diam xo yo dm1 dm2 p = Err e.
Proof. exact flatten_refused. Qed.
Print Assumptions C91_flatten.

(** ** Cases *)
Ltac entry_ := repeat first [apply entry_here | apply entry_later; [discriminate|]].
Ltac has_ := match goal with |- has _ _ _ => eexists; split; [reflexivity|entry_] end.
Ltac holds :=
  match goal with
  | |- dictionary _ => eexists; reflexivity
  | |- present _ _ => eexists; has_
  | |- a_positive _ _ => eexists; split; [eexists; split; [has_|constructor]|lra]
  | |- a_nonnegative _ _ => eexists; split; [eexists; split; [has_|constructor]|lra]
  | |- a_real _ _ => eexists; eexists; split; [has_|constructor]
  | |- an_int _ _ => eexists; eexists; split; [has_|constructor]
  | |- a_count _ _ => eexists; split; [eexists; split; [has_|constructor]|lia]
  end.
Ltac later := apply refused_later; [holds|].
Definition tuning_ (power inside : yval) : yval := YDict [("spotSepPix", YReal (13/2)); ("roiRadiusPix", YInt 2); ("nSubpixels", YInt 11);
  ("maxStep", YInt 20); ("fitCoefPow1", YReal 1); ("fitCoefPow2", YReal (1/2)); ("powerOfFit", power); ("maskIsInsideSpots", inside)].
(** A cubic is not available; with a usable power the next fault decides. *)
Example C91_spots_power : refused (spots_needs (afull 5 5 1%R) (tuning_ (YInt 3) (YStr "yes")) (YDict [("targetRatio", YInt 1)])) ValueError.
Proof.
  unfold spots_needs, keys. cbn [app map]. do 19 later. apply refused_here.
  intros [(x & (d & [= <-] & H) & I)|(x & (d & [= <-] & H) & I)];
    assert (Q : x = YInt 3) by (eapply DarkHoleP.has_det; [eexists; split; [reflexivity|exact H]|has_]); subst x; inversion I.
Qed.
Example C91_spots_inside : refused (spots_needs (afull 5 5 1%R) (tuning_ (YInt 2) (YStr "yes")) (YDict [("targetRatio", YInt 1)])) TypeError.
Proof.
  unfold spots_needs, keys. cbn [app map]. do 19 later.
  apply refused_later; [right; eexists; split; [has_|constructor]|]. apply refused_here.
  intros (z & x & (d & [= <-] & H) & I).
  assert (Q : x = YStr "yes") by (eapply DarkHoleP.has_det; [eexists; split; [reflexivity|exact H]|has_]). subst x. inversion I.
Qed.
Example C91_spots_narrow : refused (spots_needs (afull 5 1 1%R) (tuning_ (YInt 2) (YBool true)) (YDict [("targetRatio", YInt 1)])) IndexError.
Proof.
  unfold spots_needs, keys, frame. cbn [app map afull nr nc]. do 19 later.
  apply refused_later; [right; eexists; split; [has_|constructor]|]. later.
  apply refused_later; [right; exists (YBool true); split; [has_|exact (int_bool true)]|].
  apply refused_later; [lia|]. apply refused_later; [lia|]. apply refused_here. lia.
Qed.
Example C91_spots_missing : refused (spots_needs (afull 5 5 1%R) (YDict []) (YDict [("targetRatio", YInt 1)])) KeyError.
Proof.
  unfold spots_needs, keys. cbn [app map]. do 4 later. apply refused_here. intros (x & d & [= <-] & H). inversion H.
Qed.
Example C91_bowtie_list : refused (bowtie_needs (afull 5 5 1%R) (YList [])) TypeError.
Proof. apply refused_here. intros (d & H). discriminate. Qed.
(** Without any angle even an image without columns passes the requirements. *)
Definition locate_ (angles : list yval) : yval := YDict [("spotSepPix", YReal (13/2)); ("roiRadiusPix", YInt 2); ("probeRotVecDeg", YList angles);
  ("nSubpixels", YInt 11); ("nSteps", YInt 3); ("stepSize", YReal 1); ("nIter", YInt 1)].
Example C91_location_angles : refused (locate_needs (afull 5 0 1%R) "spotSepPix" (locate_ [YInt 0])) TypeError /\ met (locate_needs (afull 5 0 1%R) "spotSepPix" (locate_ [])).
Proof.
  unfold locate_needs, keys, frame. cbn [app map afull nr nc fst snd]. split.
  - do 10 later. apply refused_later; [exists [0%R], [YInt 0]; split; [has_|repeat constructor]|]. do 4 later. apply refused_here.
    intros [(vs & H & F)|H]; [|lia]. inversion F; subst. 
    assert (Q : YList [] = YList [YInt 0]) by (eapply DarkHoleP.has_det; [exact H|has_]). discriminate.
  - assert (E : has_reals (locate_ []) "probeRotVecDeg" []) by (exists []; split; [has_|constructor]).
    unfold met. repeat (apply Forall_cons; [cbn [fst]; first [holds|left; exact E|exists []; exact E]|]). apply Forall_nil.
Qed.
Definition ring : yval := YDict [("shape", YStr "annulus"); ("xOffset", YInt 0); ("yOffset", YInt 0); ("radiusInner", YInt 1); ("radiusOuter", YInt 2)].
Definition bad_ring : yval := YDict [("shape", YStr "annulus"); ("xOffset", YInt 0); ("yOffset", YInt 0); ("radiusInner", YInt 3); ("radiusOuter", YInt 2)].
Definition hole (shapes : list (string * yval)) : yval := YDict [("nRows", YInt 7); ("nCols", YInt 8); ("shapes", YDict shapes)].
(** The second shape has its radii in the wrong order; the third, which is no dictionary, is not reached. *)
Example C91_hole_second : gen_dark_hole (hole [("one", ring); ("two", bad_ring); ("three", YNone)]) = Err ValueError.
Proof.
  apply C91_dark_hole. apply (hole_shape _ _ [("one", ring)] "two" bad_ring [("three", YNone)]).
  - unfold hole_needs, keys, met. cbn [app map]. repeat (apply Forall_cons; [cbn [fst]; first [holds|eexists; has_]|]). apply Forall_nil.
  - has_.
  - intros k' w' e' [Q|[]] G. injection Q as <- <-. apply (shape_refused_iff (YInt 7) (YInt 8) 7 8) in G; [|constructor|constructor|lia|lia].
    destruct (DarkHoleP.annulus_good (YInt 7) (YInt 8) (YInt 0) (YInt 0) (YInt 1) (YInt 2) 7 8 0 0 1 2) as (a & E & _); try lia; try lra; try constructor; try lra.
    change (gen_shape (YInt 7) (YInt 8) ring) with (gen_annulus (YInt 7) (YInt 8) (YInt 0) (YInt 0) (YInt 1) (YInt 2)) in G. congruence.
  - apply shape_annulus.
    + unfold any_shape_needs, keys, met. cbn [app map]. repeat (apply Forall_cons; [cbn [fst]; first [holds|exists "annulus"; split; [cbn; tauto|has_]]|]). apply Forall_nil.
    + has_.
    + unfold annulus_needs, radii_needs. cbn [app]. do 6 later. apply refused_here.
      intros (ri & ro & (x & Hx & I) & (y & Hy & J) & L).
      assert (x = YInt 3) by (eapply DarkHoleP.has_det; [exact Hx|has_]). assert (y = YInt 2) by (eapply DarkHoleP.has_det; [exact Hy|has_]). subst.
      inversion I. inversion J. subst. lra.
Qed.
(** A mirror number that does not exist, before any file is read; then a growing search. *)
Definition map3 : arr R := afull 3 3 1%R.
Example C91_mirror : refused (map_needs map3 map3 map3 map3 map3 3 map3 1 ++ fit_needs YNone ++ registration_needs YNone 3) ValueError.
Proof.
  unfold map_needs. cbn [app map]. do 4 (apply refused_later; [split; reflexivity|]). apply refused_here. lia.
Qed.
Example C91_growing : refused (map_needs map3 map3 map3 map3 map3 1 map3 1 ++ scale_needs (YDict [("maxDeltaScaleFac", YReal (1/10)); ("nScale", YInt 5); ("nIter", YInt 2); ("shrinkFac", YInt 2)])
    ++ registration_needs YNone 1) ValueError.
Proof.
  unfold map_needs, scale_needs, keys. cbn [app map]. do 4 (apply refused_later; [split; reflexivity|]).
  apply refused_later; [auto|]. apply refused_later; [reflexivity|]. apply refused_later; [lra|]. do 9 later. apply refused_here.
  intros (r & (x & Hx & I) & L). assert (x = YInt 2) by (eapply DarkHoleP.has_det; [exact Hx|has_]). subst. inversion I. subst. lra.
Qed.

(** A list naming the three settings passes the first test of psffit but is no dictionary. *)
Example C91_psffit_list : refused (psf_settings_needs (YList [YStr "upsample_factor"; YStr "pad_factor"; YStr "amp_thresh"])) TypeError.
Proof.
  unfold psf_settings_needs. cbn [map app]. apply refused_later; [right; left; eauto|].
  do 3 (apply refused_later; [eapply mentions_element; [reflexivity|cbn; tauto]|]). apply refused_here. intros (r & x & (d & Q & _) & _). discriminate.
Qed.
Example C91_psffit_missing : refused (psf_settings_needs (YDict [("upsample_factor", YInt 10); ("amp_thresh", YReal (1/2))])) ValueError.
Proof.
  unfold psf_settings_needs. cbn [map app]. apply refused_later; [left; holds|]. apply refused_later; [apply mentions_key; holds|]. apply refused_here.
  intros [(x & d & Q & H)|l Q _|a b Q]; try discriminate. injection Q as <-. inversion H; subst. inversion H5; subst. inversion H7.
Qed.
Example C91_get_fp_coarse : Fresnel.get_fp 1 (-5) 4 1 = Err ValueError.
Proof.
  apply C91_get_fp. unfold get_fp_needs. do 3 (apply refused_later; [lra || lia|]). apply refused_here. rewrite Rabs_left by lra. lra.
Qed.
Example C91_flatten_command : refused (flatten_needs (afull 48 48 0%R) (afull 48 47 0%R) (1 / 2) 300 21 10 4 (3 / 2)) ValueError.
Proof. unfold flatten_needs. cbn [map]. apply refused_later; [reflexivity|]. apply refused_here. discriminate. Qed.
