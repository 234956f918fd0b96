(** C57: plate-scale search; C73: an image compared with itself. *)
From Coq Require Import ZArith Bool List String Reals.
From Flocq Require Import Core.Zaux Core.Raux BinarySingleNaN.
From Coquelicot Require Import Complex.
From Verif.Base Require Import Py Arr Sums CSum F64.
From Verif.Model Require Import Yaml PlateSolv.
From Verif.Spec Require Import FitsSpec MftSpec DarkHoleSpec PlateSolvSpec PlateSolvFSpec RefuseSpec.
From Verif.Proofs Require Import PlateSolvP PlateSolvQ PlateSolvEx PlateSolvF RefuseQ.
Import ListNotations.
Open Scope string_scope.
Open Scope Z_scope.

(** C57 (exact arithmetic). The trials are guess(1-w) + 2 guess w i / n for i < n. Each residual is that of the guess
    image rescaled to the trial. The values returned are exactly the points of the fine grid, from the least trial up
    to but without the greatest, where the interpolated residual is least; none if a residual is NaN. *)
Theorem C57_search : forall spline img guess g consts best pix rs,
  platesolv spline img guess g consts = Ok (best, pix, rs) ->
  (0 < g)%R /\ same_shape img guess = true /\ 0 < nr guess /\ 0 < nc guess /\
  exists w n p st lo hi, ps_params consts w n p st /\ w <> 0%R /\ (0 <= p <= 100)%R /\ (0 < st)%R /\
    pix = map (trial_scale g w n) (zrange (Zceil n)) /\ 4 <= Zceil n /\
    (forall x, In x pix -> (0 < x)%R) /\
    Forall2 (residual img guess g p) pix rs /\
    least_of pix lo /\ most_of pix hi /\
    (In None rs -> best = []) /\
    (forall ys, rs = map Some ys -> best <> [] /\
       forall x, In x best <-> on_grid lo hi st x /\ forall y, on_grid lo hi st y -> (spline pix ys x <= spline pix ys y)%R).
Proof. exact platesolv_ok. Qed.
Print Assumptions C57_search.
(** Every trial lies in [guess(1-w), guess(1+w)), every value returned between guess(1-w) and some trial. *)
Theorem C57_range : forall spline img guess g consts best pix rs w, platesolv spline img guess g consts = Ok (best, pix, rs) ->
  has_real consts "ps_wid" w -> (0 < w)%R ->
  (forall x, In x pix -> g * (1 - w) <= x < g * (1 + w))%R /\
  (forall x, In x best -> g * (1 - w) <= x /\ exists y, In y pix /\ x < y)%R.
Proof. exact best_range. Qed.
Print Assumptions C57_range.
(** A residual is determined by the images, the guess, the percentile and the trial. *)
Theorem C57_residual_unique : forall img guess g p pix r r', 0 < nr img -> 0 < nc img ->
  residual img guess g p pix r -> residual img guess g p pix r' -> r = r'.
Proof. exact residual_unique. Qed.
Print Assumptions C57_residual_unique.
(** Inputs of these kinds are never refused. *)
Theorem C57_accepts : forall spline img guess g consts w n p st,
  (0 < g)%R -> same_shape img guess = true -> 0 < nr guess -> 0 < nc guess ->
  ps_params consts w n p st -> w <> 0%R -> (0 <= p <= 100)%R -> (0 < st)%R -> 4 <= Zceil n ->
  (forall i, 0 <= i < Zceil n -> (0 < trial_scale g w n i)%R) ->
  exists o, platesolv spline img guess g consts = Ok o.
Proof. exact platesolv_accepts. Qed.
Print Assumptions C57_accepts.
(** These are refused with the module's exception. *)
Theorem C57_refuses_guess : forall spline img guess g consts, (g <= 0)%R ->
  platesolv spline img guess g consts = Err (Custom "PlateSolvException").
Proof. exact bad_guess. Qed.
Print Assumptions C57_refuses_guess.
Theorem C57_refuses_shapes : forall spline img guess g consts, same_shape img guess = false ->
  platesolv spline img guess g consts = Err (Custom "PlateSolvException").
Proof. exact bad_shape. Qed.
Print Assumptions C57_refuses_shapes.
Theorem C57_refuses_missing : forall spline img guess g d k,
  In k ["ps_wid"; "n_trials"; "percentile_val"; "interp_step_size"] -> (forall v, ~ has (YDict d) k v) ->
  platesolv spline img guess g (YDict d) = Err (Custom "PlateSolvException").
Proof. exact missing_key. Qed.
Print Assumptions C57_refuses_missing.
(** With a dictionary of settings the first unmet requirement decides the exception. *)
Theorem C57_refuses : forall spline img guess g d e, wf guess ->
  platesolv spline img guess g (YDict d) = Err e <-> refused (platesolv_needs img guess g (YDict d)) e.
Proof. exact platesolv_refused. Qed.
Print Assumptions C57_refuses.
(** An empty settings file, or one holding a single number or truth value. *)
Theorem C57_refuses_scalar_file : forall spline img guess g v, (0 < g)%R -> nr img = nr guess -> nc img = nc guess ->
  (v = YNone \/ exists b, v = YBool b) \/ (exists z, v = YInt z) \/ (exists r, v = YReal r) -> platesolv spline img guess g v = Err TypeError.
Proof. exact platesolv_no_mapping. Qed.
Print Assumptions C57_refuses_scalar_file.
(** Three trials are too few for the interpolation. *)
Example C57_three_trials : forall spline img guess, same_shape img guess = true -> 0 < nr guess -> 0 < nc guess ->
  platesolv spline img guess 2 (YDict [("ps_wid", YReal (1/5)); ("n_trials", YInt 3); ("percentile_val", YInt 99); ("interp_step_size", YReal (1/100))]) = Err ValueError.
Proof. exact three_trials. Qed.
(** An image that is a multiple of the guess image rescaled to a trial has residual zero (or NaN) at that trial. *)
Theorem C57_matching_trial : forall spline img guess g consts best pix rs x T k p,
  platesolv spline img guess g consts = Ok (best, pix, rs) ->
  has_real consts "percentile_val" p -> In x pix -> (0 <= k)%R -> rescaled guess g x T ->
  (forall i j, in_arr img i j -> at2 img i j = (k * at2 T i j)%R) ->
  forall i, nth_error pix i = Some x -> nth_error rs i = Some (Some 0%R) \/ nth_error rs i = Some None.
Proof. exact matching_trial. Qed.
Print Assumptions C57_matching_trial.
(** Brightening the image by [a] and the guess by [b] leaves trials and result alone, and scales residuals by a/b. *)
Theorem C57_brightness : forall spline img guess img' guess' g a b, (0 < a)%R -> (0 < b)%R -> homogeneous spline ->
  nr img' = nr img -> nc img' = nc img -> (forall i j, in_arr img i j -> at2 img' i j = (a * at2 img i j)%R) ->
  nr guess' = nr guess -> nc guess' = nc guess ->
  (forall i j, in_arr guess i j -> at2 guess' i j = (b * at2 guess i j)%R) ->
  0 < nr guess -> 0 < nc guess -> same_shape img guess = true -> (0 < g)%R -> forall consts,
  platesolv spline img' guess' g consts =
  (do o <- platesolv spline img guess g consts;
   Ok (fst (fst o), snd (fst o), map (option_map (Rmult (a / b))) (snd o))).
Proof. exact brightness. Qed.
Print Assumptions C57_brightness.
(** In binary64, with the shipped settings (w = 0.2, 10 trials) and guess 3.5, there are 11 trials and the last one
    lies beyond guess(1+w). *)
Theorem C57_float_trials_refuted : exists g w n : f64, fval g = (7 / 2)%R /\ fval n = 10%R /\ w = fdiv (fofZ 1) (fofZ 5) /\
  List.length (trials_f64 g w n) = 11%nat /\
  exists x, In x (trials_f64 g w n) /\ (fval g * (1 + fval w) < fval x)%R.
Proof. exact float_trials. Qed.
Print Assumptions C57_float_trials_refuted.
(** In binary64 there are n or n + 1 trials, all positive and ascending, and each is the exact one up to
    guess (n + 1) 2^-48. Missing: that there are n of them. *)
Theorem C57_float_trials_partial : forall g w n N, search_settings g w n N ->
  let l := trials_f64 g w n in
  (Z.of_nat (List.length l) = N \/ Z.of_nat (List.length l) = N + 1) /\
  forall i x, nth_error l i = Some x ->
    is_finite x = true /\ (0 < fval x)%R /\
    (Rabs (fval x - trial_scale (fval g) (fval w) (IZR N) (Z.of_nat i)) <= fval g * IZR (N + 1) * bpow radix2 (-48))%R.
Proof. exact trials_close. Qed.
Print Assumptions C57_float_trials_partial.
Theorem C57_float_trials_ascend : forall g w n N i j x y, search_settings g w n N -> (i < j)%nat ->
  nth_error (trials_f64 g w n) i = Some x -> nth_error (trials_f64 g w n) j = Some y -> (fval x < fval y)%R.
Proof. exact trials_increase. Qed.
Print Assumptions C57_float_trials_ascend.
Example C57_shipped_settings : search_settings (fdiv (fofZ 7) (fofZ 2)) (fdiv (fofZ 1) (fofZ 5)) (fofZ 10) 10.
Proof. exact shipped_settings. Qed.

(** Non-vacuity: a two-pixel guess (1, 0) recorded as (2, 1): trials 1, 3/2, 2, 5/2, and 2 is the value returned, for
    every spline that passes through its knots; such a spline exists. *)
Example C57_example : forall spline, passes_knots spline ->
  (exists o, platesolv spline (row2 2 1) (row2 1 0) 2 ps_file = Ok o) /\
  forall best pix rs, platesolv spline (row2 2 1) (row2 1 0) 2 ps_file = Ok (best, pix, rs) -> forall x, In x best <-> x = 2%R.
Proof. exact (fun s H => conj (row_accepts s 1 0 2 1) (fun b p r => good_run s b p r H)). Qed.
Example C57_spline_exists : passes_knots knots /\ homogeneous knots.
Proof. exact (conj knots_pass knots_homogeneous). Qed.

(** C73. Full statement: an image compared with itself (or a multiple of itself) has its residual zero at the guess,
    so the guess is the best trial. Proved for square images at one pixel per lambda/D, where the two transforms are
    inverse. Missing: every other sampling, for which [C73_self_refuted]. *)
Theorem C73_self_critical_partial : forall spline img guess n consts best pix rs k p v m nt,
  platesolv spline img guess 1 consts = Ok (best, pix, rs) ->
  nr guess = n -> nc guess = n -> (0 <= k)%R -> (forall i j, in_arr img i j -> at2 img i j = (k * at2 guess i j)%R) ->
  has_real consts "percentile_val" p -> is_percentile guess p v -> v <> 0%R -> is_max guess m -> m <> 0%R ->
  has_real consts "n_trials" (IZR (2 * Z.of_nat nt)) ->
  nth_error pix nt = Some 1%R /\ nth_error rs nt = Some (Some 0%R).
Proof. exact critical_zero. Qed.
Print Assumptions C73_self_critical_partial.
(** The image (1, 2) compared with itself at its own scale 2, a trial: the result is 3/2, whatever the spline does
    between its knots. *)
Theorem C73_self_refuted : forall spline, passes_knots spline ->
  (exists o, platesolv spline (row2 1 2) (row2 1 2) 2 ps_file = Ok o) /\
  forall best pix rs, platesolv spline (row2 1 2) (row2 1 2) 2 ps_file = Ok (best, pix, rs) ->
    pix = [1; 3 / 2; 2; 5 / 2]%R /\ forall x, In x best <-> x = (3 / 2)%R.
Proof. exact self_refuted. Qed.
Print Assumptions C73_self_refuted.

Example C73_example : forall spline, exists best pix rs, platesolv spline (amap (Rmult 3) corner) corner 1 ps_file = Ok (best, pix, rs) /\
  is_percentile corner 100 2 /\ is_max corner 2 /\ has_real ps_file "n_trials" (IZR (2 * Z.of_nat 2)).
Proof. exact corner_example. Qed.
