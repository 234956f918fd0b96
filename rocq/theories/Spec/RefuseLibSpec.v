(** What the numerical functions called directly ask of their arguments, in the order in which they look. *)
From Coq Require Import ZArith List String Reals.
From Coquelicot Require Import Complex.
From Flocq Require Import Core.Raux.
From Verif.Base Require Import Py Arr Vec.
Import ListNotations.
Open Scope string_scope.
Open Scope Z_scope.

Definition two_at_least (lo : Z) (l : list Z) : Prop := exists a b, l = [a; b] /\ lo <= a /\ lo <= b.
(** do_mft and do_imft: two positive samplings, an output shape, an image with at least one pixel. *)
Definition mft_needs (e : arr C) (outshape : list Z) (pixperlod pixperpupil : R) : list (Prop * exn) :=
  map (fun P : Prop => (P, TypeError))
    [(0 < pixperlod)%R; (0 < pixperpupil)%R; two_at_least 1 outshape; 0 < nr e; 0 < nc e].
(** do_offcenter_mft: also a pupil shape and a lower left corner; the image must end inside the pupil
    array, unless it has no pixel on that axis. *)
Definition ends_inside (n : Z) (corner size : option Z) : Prop :=
  match corner, size with Some c, Some s => n = 0 \/ c + n <= s | _, _ => False end.
Definition offcenter_needs (e : arr C) (outshape : list Z) (pixperlod pixperpupil : R) (pupilShape yxLowerLeft : list Z) : list (Prop * exn) :=
  map (fun P : Prop => (P, TypeError))
    [(0 < pixperlod)%R; (0 < pixperpupil)%R; two_at_least 1 outshape; two_at_least 1 pupilShape; two_at_least 0 yxLowerLeft] ++
  map (fun P : Prop => (P, ValueError))
    [ends_inside (nr e) (nth_error yxLowerLeft 0) (nth_error pupilShape 0);
     ends_inside (nc e) (nth_error yxLowerLeft 1) (nth_error pupilShape 1)].
(** resample_inf_func and build_prefilter; the spline takes at least four samples on each axis, and is
    not used when the samplings agree. *)
Definition resample_needs (inf_func : arr R) (ppa_in ppa_out : R) : list (Prop * exn) :=
  [((0 < ppa_in)%R, TypeError); ((0 < ppa_out)%R, TypeError);
   (ppa_in = ppa_out \/ (4 <= nr inf_func /\ 4 <= nc inf_func), Custom "fitpack")].
Definition prefilter_needs (nrow ncol : Z) (inf_func : arr R) (ppa_in : R) : list (Prop * exn) :=
  [(0 < nrow, TypeError); (0 < ncol, TypeError)] ++ resample_needs inf_func ppa_in 1.
(** quadrant_energy_balance: the first coordinate is compared with the number of rows, the second with
    the number of columns. *)
Definition quadrant_needs (image : arr R) (x y : Z) (radius : R) : list (Prop * exn) :=
  [((0 <= radius)%R, TypeError); (0 <= x, TypeError); (0 <= y, TypeError); (x < nr image, ValueError); (y < nc image, ValueError)].
(** compute_upsampled_dft *)
Definition upsampled_needs (image_dft : arr C) (upsample_factor : R) : list (Prop * exn) :=
  [(upsample_factor <> 0%R, ZeroDivisionError); (0 < nr image_dft /\ 0 < nc image_dft, ZeroDivisionError)].
(** fresnelprop: as for get_fp, but no samples are asked for when the distance is 0. *)
Definition fresnel_needs (e : arr C) (lam z : R) (nx : Z) (ppm : R) : list (Prop * exn) :=
  [((0 < lam)%R, TypeError); (0 < nx, TypeError); ((0 < ppm)%R, TypeError);
   (z = 0%R \/ ((lam * Rabs z * ppm ^ 2 <= IZR (nr e))%R /\ (lam * Rabs z * ppm ^ 2 <= IZR (nc e))%R), ValueError)].
(** gen_split_wfe on a shape of two positive numbers: the fourth coefficient is taken when focus is split
    off, and every map needs at least one mode. *)
Definition split_needs (focus : bool) (maxNoll : Z) (diamPupil : R) : list (Prop * exn) :=
  [(0 < maxNoll, ValueError); ((0 < diamPupil)%R, ValueError); (focus = true -> 4 <= maxNoll, IndexError);
   ((if focus then 5 else 4) <= maxNoll, ValueError)].
(** xyzern on two coordinate maps; gen_zernikes on a positive beam and array size. *)
Definition all_positive (l : list Z) : Prop := forall o, In o l -> 0 < o.
Definition xyzern_needs (x y : arr R) (prad : R) (orders : list Z) : list (Prop * exn) :=
  [((0 < prad)%R, TypeError); (nr x = nr y /\ nc x = nc y, TypeError); (all_positive orders, TypeError); (orders <> [], ValueError)].
Definition zernikes_needs (inds : list Z) (coefs : list R) (nBeam : R) (nArray : Z) : list (Prop * exn) :=
  [(List.length inds = List.length coefs, ValueError); ((0 < nBeam)%R, ValueError); (0 < nArray, ValueError);
   (all_positive inds, TypeError); (inds <> [], ValueError)].
(** phase_cost_function *)
Definition cost_needs (alpha : R) (wfeZ wfeAbove : arr R) (usable : arr bool) : list (Prop * exn) :=
  map (fun P : Prop => (P, ValueError))
    [(0 <= alpha <= 1)%R; nr wfeZ = nr usable /\ nc wfeZ = nc usable; nr wfeAbove = nr usable /\ nc wfeAbove = nc usable].
(** conv_surf_to_dm_cmd on a surface of [h] by [w] pixels. *)
Definition conv_needs (h w : Z) (pitch cx cy : R) (nact : Z) (d : R) (inf : arr R) : list (Prop * exn) :=
  map (fun P : Prop => (P, ValueError)) [(0 < pitch)%R; (0 < cx)%R; (0 < cy)%R; 0 < nact; (0 < d)%R; nr inf = nc inf] ++
  [(4 <= h /\ 4 <= w, Custom "fitpack"); (d = 1%R \/ 4 <= nr inf, Custom "fitpack")].
