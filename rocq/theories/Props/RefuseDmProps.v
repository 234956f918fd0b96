(** C91 and C26, continued: the DM shapes, the crops, the smoothing and the one-dimensional fit refuse malformed inputs with
    the exception of the first requirement that fails, and accept all others. *)
From Coq Require Import ZArith Bool List String Reals Lra Lia.
From Verif.Base Require Import Py Arr Vec.
From Verif.Model Require Import Dm Fits PadCrop Conjugate.
From Verif.Spec Require Import RefuseSpec RefuseDmSpec.
From Verif.Proofs Require Import RefuseDm.
Import ListNotations.
Open Scope Z_scope.

Theorem C91_probe : forall nact dact xc yc cl h x0 x1 e0 e1 ph e,
  probe nact dact xc yc cl h x0 x1 e0 e1 ph = Err e <-> refused (probe_needs nact dact h x0 x1 e0 e1) e.
Proof. exact probe_refused. Qed.
Print Assumptions C91_probe.
Theorem C91_sine : forall nact dact am ph fx fy e, sine nact dact am ph fx fy = Err e <-> refused (sine_needs nact dact am) e.
Proof. exact sine_refused. Qed.
Print Assumptions C91_sine.
Theorem C91_grid : forall nact xs ys xo yo poke e, grid nact xs ys xo yo poke = Err e <-> refused (grid_needs nact xs ys xo yo) e.
Proof. exact grid_refused. Qed.
Print Assumptions C91_grid.
Theorem C91_dm_zernike : forall nact dact size j e, dm_zernike nact dact size j = Err e <-> refused (zernike_needs nact dact j) e.
Proof. exact dm_zernike_refused. Qed.
Print Assumptions C91_dm_zernike.
Theorem C91_volts : forall g a lam e,
  (dmh_to_volts g a lam = Err e <-> refused (volts_needs g a lam) e) /\ (volts_to_dmh g a lam = Err e <-> refused (volts_needs g a lam) e).
Proof. intros g a lam e. exact (conj (to_volts_refused g a lam e) (from_volts_refused g a lam e)). Qed.
Print Assumptions C91_volts.
Theorem C91_crop : forall (A : Type) (frame : arr (fnan A)) lr lc rw cw e,
  crop frame lr lc rw cw = Err e <-> refused (crop_needs (nr frame) (nc frame) lr lc rw cw) e.
Proof. exact @crop_refused. Qed.
Print Assumptions C91_crop.
Theorem C91_crop_corner : forall rc cc rw cw b e, get_crop_lower rc cc rw cw b = Err e <-> refused (corner_needs rc cc rw cw) e.
Proof. exact corner_refused. Qed.
Print Assumptions C91_crop_corner.
Theorem C91_combine : forall (A : Type) (frame : arr (fnan A)) (bp : arr bool) e,
  combine frame bp = Err e <-> e = TypeError /\ ~ (nr bp = nr frame /\ nc bp = nc frame).
Proof. exact @combine_refused. Qed.
Print Assumptions C91_combine.
Theorem C91_offcenter_crop : forall (A : Type) (zero : A) a n yc xc e, wf a ->
  offcenter_crop zero a n yc xc = Err e <-> refused (each TypeError [0 < n]) e.
Proof. exact @window_refused. Qed.
Print Assumptions C91_offcenter_crop.
Theorem C91_smooth_surface : forall ker a w e, wf a -> smooth_surface ker a w = Err e <-> refused (smooth_needs a w) e.
Proof. exact smooth_refused. Qed.
Print Assumptions C91_smooth_surface.
(** C26. Nothing to fit: TypeError, from numpy. *)
Theorem C26_nothing : forall lstsq xs ys, vlen xs = vlen ys -> vlen xs <= 0 -> find_optimum_1d lstsq xs ys = Err TypeError.
Proof. exact opt1_nothing. Qed.
Print Assumptions C26_nothing.

Example C91_dm_ex : (forall d, dm_zernike 4 (-1) 1 0 <> Ok d) /\ dm_zernike 4 (-1) 1 0 = Err TypeError /\
  grid 4 5 2 1 3 1 = Err ValueError /\ probe 4 3 0 0 0 1 2 2 0 1 0 = Err ValueError.
Proof.
  assert (E : dm_zernike 4 (-1) 1 0 = Err TypeError).
  { apply C91_dm_zernike. unfold zernike_needs, each. cbn [map]. apply refused_later; [lia|]. apply refused_here. lra. }
  split; [intros d; rewrite E; discriminate|]. split; [exact E|]. split.
  - apply C91_grid. unfold grid_needs, each. cbn [map app]. do 5 (apply refused_later; [lia|]). apply refused_later; [lia|]. apply refused_here. lia.
  - apply C91_probe. unfold probe_needs, each. cbn [map app]. apply refused_later; [lia|]. do 2 (apply refused_later; [lra|]). apply refused_here. lra.
Qed.
Example C91_crop_ex : crop (afull 3 4 (Some 1)) 3 (-1) 1 1 = Err TypeError /\ crop (afull 3 4 (Some 1)) 3 4 1 1 = Err ValueError /\
  wf (afull 3 4 0) /\ offcenter_crop 0 (afull 3 4 0) 0 1%R 1%R = Err TypeError.
Proof.
  split; [reflexivity|]. split; [reflexivity|]. split; [split; cbn; lia|reflexivity].
Qed.
Example C26_nothing_ex : vlen (Vec 0 (fun _ => 0%R)) <= 0.
Proof. cbn. lia. Qed.
