(** C52: star location from satellite spots; C70: separation of the spots. *)
From Coq Require Import ZArith Bool List String Reals.
From Verif.Base Require Import Py Arr Vec Lstsq.
From Verif.Model Require Import Yaml Occastro.
From Verif.Spec Require Import FitsSpec PupilUtilSpec OccastroSpec.
From Verif.Proofs Require Import OccastroP OccastroEx.
Import ListNotations.
Open Scope string_scope.
Open Scope Z_scope.

(** C52. What is returned is the position found less the guess: the search starts at the guess, and every pass ends
    at the stationary point of the quadratic fitted to the flux in the spots' discs. *)
Theorem C52_relative_to_guess : forall lstsq img xg yg tv t, is_lstsq_oracle lstsq ->
  describes_spots "spotSepPix" tv t -> 1 < nc img -> 0 < nr img ->
  match calc_star_location_from_spots lstsq img xg yg tv with
  | Ok (x, y) => star_found img t xg yg (xg + x) (yg + y)
  | Err e => e = Custom "QuadraticException"
  end.
Proof. exact star_ok. Qed.
Print Assumptions C52_relative_to_guess.
(** With guess (0, 0) the returned offset is the position measured from the centre pixel, as documented. Missing:
    any other guess, for which [C52_documented_refuted]. *)
Theorem C52_zero_guess_partial : forall lstsq img tv t x y, is_lstsq_oracle lstsq ->
  describes_spots "spotSepPix" tv t -> 1 < nc img -> 0 < nr img ->
  calc_star_location_from_spots lstsq img 0 0 tv = Ok (x, y) -> star_found img t 0 0 x y.
Proof. exact star_zero_guess. Qed.
Print Assumptions C52_zero_guess_partial.
(** When the fluxes at the trial positions lie on a quadratic surface with its stationary point at (X, Y), the
    result is that point less the guess. *)
Theorem C52_exact : forall lstsq img xg yg tv t a b c p q r X Y, is_lstsq_oracle lstsq ->
  describes_spots "spotSepPix" tv t -> 1 < nc img -> 0 < nr img -> 3 <= s_steps t ->
  (forall x0 y0 i j, (x0 = xg /\ y0 = yg) \/ (x0 = X /\ y0 = Y) -> 0 <= i < s_steps t -> 0 <= j < s_steps t ->
     let x := trial (s_steps t) (s_step t) x0 j in let y := trial (s_steps t) (s_step t) y0 i in
     pairs_flux img (s_radius t) (s_sub t) (s_sep t) x y (s_angles t) (quad2 a b c p q r x y)) ->
  (4 / 10 ^ 15 <= Rabs (b ^ 2 - 4 * a * c))%R -> (/ 10 ^ 15 <= Rabs c)%R -> stationary a b c p q X Y ->
  calc_star_location_from_spots lstsq img xg yg tv = Ok (X - xg, Y - yg)%R.
Proof. exact star_exact. Qed.
Print Assumptions C52_exact.
(** With the guess at the centre of symmetry of the image the search stays there, and zero comes back. *)
Theorem C52_at_centre : forall lstsq img hx hy tv t, is_lstsq_oracle lstsq ->
  describes_spots "spotSepPix" tv t -> 1 < nc img -> 0 < nr img -> 2 <= s_steps t -> point_symmetric img hx hy ->
  calc_star_location_from_spots lstsq img (IZR hx / 2) (IZR hy / 2) tv = Err (Custom "QuadraticException") \/
  calc_star_location_from_spots lstsq img (IZR hx / 2) (IZR hy / 2) tv = Ok (0, 0)%R.
Proof. exact star_at_guess. Qed.
Print Assumptions C52_at_centre.
Theorem C52_only_valid_files : forall lstsq img xg yg tv o, calc_star_location_from_spots lstsq img xg yg tv = Ok o ->
  exists t, describes_spots "spotSepPix" tv t /\ (s_angles t <> [] -> 1 < nc img /\ 0 < nr img).
Proof. exact star_inv. Qed.
Print Assumptions C52_only_valid_files.
(** An image symmetric about the star's position, started there, for which that position is not returned. *)
Theorem C52_documented_refuted : exists img hx hy tv t, describes_spots "spotSepPix" tv t /\ point_symmetric img hx hy /\
  forall lstsq, is_lstsq_oracle lstsq ->
  exists x y, calc_star_location_from_spots lstsq img (IZR hx / 2) (IZR hy / 2) tv = Ok (x, y) /\
    (x <> IZR hx / 2 \/ y <> IZR hy / 2)%R.
Proof. exact guess_lost. Qed.
Print Assumptions C52_documented_refuted.
(** Two spots about a star one pixel off the centre. *)
Example C52_example : describes_spots "spotSepPix" (spots_file "spotSepPix") spots_tuning /\ point_symmetric two_spots 2 0 /\
  (forall i j, 0 <= i < 3 -> 0 <= j < 3 -> let x := trial 3 1 1 j in let y := trial 3 1 0 i in
     pairs_flux two_spots (1 / 2) 1 2 x y [0%R] (quad2 (-2) 0 (-2) 4 0 2 x y)) /\
  forall lstsq, is_lstsq_oracle lstsq -> calc_star_location_from_spots lstsq two_spots 1 0 (spots_file "spotSepPix") = Ok (0, 0)%R.
Proof. exact (conj (spots_file_ok _ (or_introl eq_refl)) (conj two_spots_symmetric (conj two_spots_exact two_spots_result))). Qed.

(** C70. The separation search: with one pass the vertex of the parabola fitted to the fluxes at the trial
    separations; with more, the brightest trial separation first and fits from there on. *)
Theorem C70_search : forall lstsq img xo yo tv t, is_lstsq_oracle lstsq ->
  describes_spots "spotSepGuessPix" tv t -> 1 < nc img -> 0 < nr img ->
  exists G, (forall s, pairs_flux img (s_radius t) (s_sub t) s xo yo (s_angles t) (G s)) /\
  match calc_spot_separation lstsq img xo yo tv with
  | Ok s => sep_search G (s_steps t) (s_iter t) (s_step t) (s_sep t) s
  | Err e => e = Custom "QuadraticException"
  end.
Proof. exact sep_ok. Qed.
Print Assumptions C70_search.
(** When the fluxes at the separations tried lie on a parabola its vertex is returned. *)
Theorem C70_exact : forall lstsq img xo yo tv t a b c, is_lstsq_oracle lstsq ->
  describes_spots "spotSepGuessPix" tv t -> 1 < nc img -> 0 < nr img -> 3 <= s_steps t ->
  (forall G s0, (forall s, pairs_flux img (s_radius t) (s_sub t) s xo yo (s_angles t) (G s)) ->
     (if Z.eqb (s_iter t) 1 then s0 = s_sep t
      else brightest G (s_steps t) (s_step t) (s_sep t) s0 \/ s0 = (- b / (2 * a))%R) ->
     forall i, 0 <= i < s_steps t -> let s := trial (s_steps t) (s_step t) s0 i in G s = (a * s ^ 2 + b * s + c)%R) ->
  (/ 2 ^ 52 <= Rabs a)%R -> calc_spot_separation lstsq img xo yo tv = Ok (- b / (2 * a))%R.
Proof. exact sep_exact. Qed.
Print Assumptions C70_exact.
Theorem C70_only_valid_files : forall lstsq img xo yo tv s, calc_spot_separation lstsq img xo yo tv = Ok s ->
  exists t, describes_spots "spotSepGuessPix" tv t /\ (s_angles t <> [] -> 1 < nc img /\ 0 < nr img).
Proof. exact sep_inv. Qed.
Print Assumptions C70_only_valid_files.
Example C70_example : describes_spots "spotSepGuessPix" (spots_file "spotSepGuessPix") spots_tuning /\
  forall lstsq, is_lstsq_oracle lstsq -> calc_spot_separation lstsq two_spots 1 0 (spots_file "spotSepGuessPix") = Ok 2%R.
Proof. exact (conj (spots_file_ok _ (or_intror eq_refl)) two_spots_sep). Qed.
