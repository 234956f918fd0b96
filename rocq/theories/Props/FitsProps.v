(** Properties C25-C30: thresholding, extremum fits, centroids, quadrant balance, plane removal. *)
From Coq Require Import ZArith Bool List Reals Lra Lia String.
From Verif.Base Require Import Py Arr Vec Sums Lstsq.
From Verif.Model Require Import Noll Fits.
From Verif.Spec Require Import FitsSpec SurfaceSpec.
From Verif.Proofs Require Import FitsP SurfaceP.
Import ListNotations.
Open Scope Z_scope.

(** C25. What the mask is: pixels above the centre of the first interior valley of the histogram. *)
Theorem C25_threshold_at_first_valley : forall a n m, ampthresh a n = Ok m ->
  exists lo hi H k, is_min a lo /\ is_max a hi /\ (lo < hi)%R /\ histogram a lo hi n H /\
    1 <= k <= n - 2 /\ valley H k /\ (forall k', 1 <= k' < k -> ~ valley H k') /\
    nr m = nr a /\ nc m = nc a /\
    forall i j, in_arr a i j -> (at2 m i j = true <-> (lo + (IZR k + / 2) * (hi - lo) / IZR n < at2 a i j)%R).
Proof. exact ampthresh_ok. Qed.
Print Assumptions C25_threshold_at_first_valley.
Theorem C25_separates : forall a n m, ampthresh a n = Ok m ->
  nr m = nr a /\ nc m = nc a /\
  (forall i j i' j', in_arr a i j -> in_arr a i' j' -> at2 m i j = true -> (at2 a i j <= at2 a i' j')%R ->
     at2 m i' j' = true) /\
  (forall i j, in_arr a i j -> is_max a (at2 a i j) -> at2 m i j = true) /\
  (forall i j, in_arr a i j -> is_min a (at2 a i j) -> at2 m i j = false).
Proof. exact ampthresh_separates. Qed.
Print Assumptions C25_separates.
Theorem C25_affine_invariant : forall a n m s o, (0 < s)%R -> ampthresh a n = Ok m ->
  exists m', ampthresh (amap (fun v => s * v + o)%R a) n = Ok m' /\ aeq m' m.
Proof. exact ampthresh_affine. Qed.
Print Assumptions C25_affine_invariant.
Theorem C25_raises : forall a n,
  (n < 3 -> ampthresh a n = Err ValueError) /\
  forall e, ampthresh a n = Err e -> e = ValueError /\
  (n <= 0 \/ (~ exists i j, in_arr a i j) \/ (exists v, is_min a v /\ is_max a v) \/
   exists lo hi H, is_min a lo /\ is_max a hi /\ (lo < hi)%R /\ histogram a lo hi n H /\
     forall k, 1 <= k <= n - 2 -> ~ valley H k).
Proof. intros a n. split; [apply ampthresh_few_bins|intros e; apply ampthresh_err]. Qed.
Print Assumptions C25_raises.
Example C25_ex : exists m, ampthresh (of_rows 0%R [[0; 3]]%R) 3 = Ok m.
Proof. exact two_level_ok. Qed.

(** C26. *)
Theorem C26_exact_parabola : forall lstsq xs ys a b c, is_lstsq_oracle lstsq -> vlen xs = vlen ys ->
  three_distinct xs ->
  (forall i, 0 <= i < vlen xs -> vat ys i = (a * vat xs i ^ 2 + b * vat xs i + c)%R) ->
  find_optimum_1d lstsq xs ys =
    (if Rlt_dec (Rabs a) (/ 2 ^ 52) then Err (Custom "QuadraticException") else Ok (- b / (2 * a))%R).
Proof. intros lstsq xs ys a b c O. exact (opt1_exact lstsq O xs ys a b c). Qed.
Print Assumptions C26_exact_parabola.
(** C26. For arbitrary data: the vertex of the least-squares parabola. *)
Theorem C26_least_squares_vertex : forall lstsq xs ys p2 p1 p0, is_lstsq_oracle lstsq -> vlen xs = vlen ys ->
  three_distinct xs -> best_parabola xs ys p2 p1 p0 ->
  find_optimum_1d lstsq xs ys =
    (if Rlt_dec (Rabs p2) (/ 2 ^ 52) then Err (Custom "QuadraticException") else Ok (- p1 / (2 * p2))%R).
Proof. intros lstsq xs ys p2 p1 p0 O. exact (opt1_general lstsq O xs ys p2 p1 p0). Qed.
Print Assumptions C26_least_squares_vertex.
Theorem C26_shift : forall lstsq xs ys s t, is_lstsq_oracle lstsq -> vlen xs = vlen ys -> three_distinct xs ->
  find_optimum_1d lstsq (Vec (vlen xs) (fun i => vat xs i + s)%R) (Vec (vlen ys) (fun i => vat ys i + t)%R) =
  (do r <- find_optimum_1d lstsq xs ys; Ok (r + s)%R).
Proof. intros lstsq xs ys s t O. exact (opt1_shift lstsq O xs ys s t). Qed.
Print Assumptions C26_shift.
Theorem C26_length_mismatch : forall lstsq xs ys, vlen xs <> vlen ys ->
  find_optimum_1d lstsq xs ys = Err ValueError.
Proof. exact opt1_length. Qed.
Print Assumptions C26_length_mismatch.
Example C26_ex : is_lstsq_oracle (@lstsq_ref Z) /\ three_distinct ramp3.
Proof. split; [exact lstsq_ref_ok|exact ramp3_distinct]. Qed.

(** C27. On exact samples of a quadratic surface the call either raises, exactly when one of the two
    denominators is tiny, or returns the closed form below ... *)
Theorem C27_exact_quadratic_partial : forall lstsq xs ys arr mask a b c d e f, is_lstsq_oracle lstsq ->
  same_shape arr mask = true -> nr arr = vlen ys -> nc arr = vlen xs -> bool_mask mask -> unisolvent2 xs ys mask ->
  (forall i j, in_arr mask i j -> at2 mask i j <> 0%R -> at2 arr i j = quad2 a b c d e f (vat xs j) (vat ys i)) ->
  find_optimum_2d lstsq xs ys arr mask =
    if Rlt_dec (Rabs (b ^ 2 - 4 * a * c)) (4 * / 10 ^ 15) then Err (Custom "QuadraticException")
    else if Rlt_dec (Rabs (2 * c)) (2 * / 10 ^ 15) then Err (Custom "QuadraticException")
    else Ok ((2 * c * d - b * e) / (b ^ 2 - 4 * a * c), (2 * a * e - b * d) / (b ^ 2 - 4 * a * c))%R.
Proof. intros lstsq xs ys arr mask a b c d e f O. exact (opt2_exact lstsq O xs ys arr mask a b c d e f). Qed.
Print Assumptions C27_exact_quadratic_partial.
(** ... and so it does on arbitrary data, for the surface of least squared misfit, which always exists ... *)
Theorem C27_least_squares_partial : forall lstsq xs ys arr mask a b c d e f, is_lstsq_oracle lstsq ->
  same_shape arr mask = true -> nr arr = vlen ys -> nc arr = vlen xs -> bool_mask mask -> unisolvent2 xs ys mask ->
  best_surface xs ys arr mask a b c d e f ->
  find_optimum_2d lstsq xs ys arr mask =
    if Rlt_dec (Rabs (b ^ 2 - 4 * a * c)) (4 * / 10 ^ 15) then Err (Custom "QuadraticException")
    else if Rlt_dec (Rabs (2 * c)) (2 * / 10 ^ 15) then Err (Custom "QuadraticException")
    else Ok ((2 * c * d - b * e) / (b ^ 2 - 4 * a * c), (2 * a * e - b * d) / (b ^ 2 - 4 * a * c))%R.
Proof. exact opt2_general. Qed.
Print Assumptions C27_least_squares_partial.
Theorem C27_best_surface_exists : forall xs ys arr mask, exists a b c d e f, best_surface xs ys arr mask a b c d e f.
Proof. exact best_surface_exists. Qed.
Print Assumptions C27_best_surface_exists.
(** ... the value being the unique stationary point. *)
Theorem C27_stationary : forall a b c d e x y, (b ^ 2 - 4 * a * c <> 0)%R ->
  (stationary a b c d e x y <->
   x = (2 * c * d - b * e) / (b ^ 2 - 4 * a * c) /\ y = (2 * a * e - b * d) / (b ^ 2 - 4 * a * c))%R.
Proof. exact stationary_unique. Qed.
Print Assumptions C27_stationary.
Theorem C27_shape_mismatch : forall lstsq xs ys arr mask,
  same_shape arr mask = false \/ nr arr <> vlen ys \/ nc arr <> vlen xs ->
  find_optimum_2d lstsq xs ys arr mask = Err ValueError.
Proof. exact opt2_shape. Qed.
Print Assumptions C27_shape_mismatch.
(** C27 refuted as stated: f(x,y) = x*y is non-degenerate with stationary point (0,0), but its y^2
    coefficient is zero and the call raises "no quadratic component". *)
Theorem C27_nondegenerate_refuted : ~ (forall lstsq xs ys arr mask a b c d e f,
  is_lstsq_oracle lstsq -> same_shape arr mask = true -> nr arr = vlen ys -> nc arr = vlen xs ->
  bool_mask mask -> unisolvent2 xs ys mask ->
  (forall i j, in_arr mask i j -> at2 mask i j <> 0%R -> at2 arr i j = quad2 a b c d e f (vat xs j) (vat ys i)) ->
  (1 <= Rabs (b ^ 2 - 4 * a * c))%R -> is_ok (find_optimum_2d lstsq xs ys arr mask)).
Proof.
  intros H. destruct (H lstsq_ref ramp3 ramp3 (Arr 3 3 (fun i j => (IZR j - 1) * (IZR i - 1))%R) ones33 0%R 1%R 0%R 0%R 0%R 0%R) as [r E];
    try reflexivity.
  - exact lstsq_ref_ok.
  - exact ones33_bool.
  - exact ones33_unisolvent.
  - intros i j _ _. unfold quad2. cbn. ring.
  - replace (1 ^ 2 - 4 * 0 * 0)%R with 1%R by ring. rewrite Rabs_right; lra.
  - rewrite opt2_saddle_raises in E by exact lstsq_ref_ok. discriminate.
Qed.
Print Assumptions C27_nondegenerate_refuted.
Example C27_ex : find_optimum_2d lstsq_ref ramp3 ramp3
  (Arr 3 3 (fun i j => (IZR j - 1) ^ 2 + (IZR i - 1) ^ 2 + 2 * (IZR j - 1))%R) ones33 = Ok (-1, 0)%R.
Proof. apply opt2_bowl, lstsq_ref_ok. Qed.

(** C28. The first result is the mean column, the second the mean row. *)
Theorem C28_centroid : forall a, (energy_sum a <> 0)%R -> center_of_energy a =
  (Some (rsum2 (fun i j => IZR j * at2 a i j)%R (nr a) (nc a) / energy_sum a)%R,
   Some (rsum2 (fun i j => IZR i * at2 a i j)%R (nr a) (nc a) / energy_sum a)%R).
Proof. exact center_value. Qed.
Print Assumptions C28_centroid.
(** C28. The centroid lies in the bounding box of the non-zero pixels. *)
Theorem C28_inside : forall a l r t b, (0 < energy_sum a)%R ->
  (forall i j, in_arr a i j -> (0 <= at2 a i j)%R) ->
  (forall i j, in_arr a i j -> at2 a i j <> 0%R -> l <= j <= r /\ t <= i <= b) ->
  exists x y, center_of_energy a = (Some x, Some y) /\ (IZR l <= x <= IZR r)%R /\ (IZR t <= y <= IZR b)%R.
Proof.
  intros a l r t b P N B. do 2 eexists. split; [apply center_value; lra|]. split.
  - apply (mean_bounds (fun _ j => IZR j)); auto. intros i j I Q. destruct (B i j I Q). split; apply IZR_le; lia.
  - apply (mean_bounds (fun i _ => IZR i)); auto. intros i j I Q. destruct (B i j I Q). split; apply IZR_le; lia.
Qed.
Print Assumptions C28_inside.
Theorem C28_scale : forall a s, s <> 0%R -> center_of_energy (amap (fun v => s * v)%R a) = center_of_energy a.
Proof. exact center_scale. Qed.
Print Assumptions C28_scale.
Theorem C28_point_source : forall a i0 j0, in_arr a i0 j0 -> at2 a i0 j0 <> 0%R ->
  (forall i j, in_arr a i j -> (i, j) <> (i0, j0) -> at2 a i j = 0%R) ->
  center_of_energy a = (Some (IZR j0), Some (IZR i0)).
Proof. exact center_point. Qed.
Print Assumptions C28_point_source.
Theorem C28_translate : forall a b s t cx cy, wf a -> nr b = nr a -> nc b = nc a ->
  (forall i j, in_arr a i j -> at2 a i j <> 0%R -> 0 <= i + s < nr a /\ 0 <= j + t < nc a) ->
  (forall i j, in_arr b i j ->
     (in_arr a (i - s) (j - t) -> at2 b i j = at2 a (i - s) (j - t)) /\ (~ in_arr a (i - s) (j - t) -> at2 b i j = 0%R)) ->
  energy_sum a <> 0%R ->
  center_of_energy a = (Some cx, Some cy) ->
  center_of_energy b = (Some (cx + IZR t)%R, Some (cy + IZR s)%R).
Proof. exact center_translate. Qed.
Print Assumptions C28_translate.
(** C28. Degenerate images: all zero gives (0, 0); non-zero pixels cancelling give nan or inf (None). *)
Theorem C28_degenerate : forall a,
  ((forall i j, in_arr a i j -> at2 a i j = 0%R) -> center_of_energy a = (Some 0%R, Some 0%R)) /\
  (forall i j, in_arr a i j -> at2 a i j <> 0%R -> energy_sum a = 0%R -> center_of_energy a = (None, None)).
Proof. intros a. split; [apply center_zero|intros i j; apply center_undefined]. Qed.
Print Assumptions C28_degenerate.
(** C28. The docstring's order (row first) is wrong. *)
Theorem C28_documented_order_refuted : ~ (forall a i0 j0, in_arr a i0 j0 -> at2 a i0 j0 <> 0%R ->
  (forall i j, in_arr a i j -> (i, j) <> (i0, j0) -> at2 a i j = 0%R) ->
  center_of_energy a = (Some (IZR i0), Some (IZR j0))).
Proof.
  intros H. assert (I : in_arr row_right 1 2) by (split; cbn; lia).
  assert (N : at2 row_right 1 2 <> 0%R) by (change (at2 row_right 1 2) with 1%R; lra).
  assert (Z0 : forall i j, in_arr row_right i j -> (i, j) <> (1, 2) -> at2 row_right i j = 0%R).
  { intros i j [Hi Hj] Ne. cbn in Hi, Hj.
    assert (i = 0 \/ i = 1 \/ i = 2) as [->|[->| ->]] by lia; assert (j = 0 \/ j = 1 \/ j = 2) as [->|[->| ->]] by lia;
      try reflexivity. tauto. }
  pose proof (H _ _ _ I N Z0) as E. rewrite (C28_point_source _ _ _ I N Z0) in E. injection E as E _. lra.
Qed.
Print Assumptions C28_documented_order_refuted.
Example C28_ex : (0 < energy_sum row_right)%R. Proof. rewrite row_right_energy. lra. Qed.

(** C29. What is returned: column-sign and row-sign weighted energy in the disc over the image sum, where
    pixels on the origin's row (for x) or column (for y) count twice. *)
Theorem C29_balance_partial : forall a x0 y0 radius, (0 <= radius)%R -> 0 <= x0 < nr a -> 0 <= y0 < nc a -> energy_sum a <> 0%R ->
  exists bx by_ sx sy, quadrant_energy_balance a x0 y0 radius = Ok (bx, by_) /\
    disc_energy a x0 y0 radius (code_side_x x0 y0) sx /\ disc_energy a x0 y0 radius (code_side_y x0 y0) sy /\
    bx = (sx / energy_sum a)%R /\ by_ = (sy / energy_sum a)%R.
Proof. exact quad_value. Qed.
Print Assumptions C29_balance_partial.
(** C29. With no light on the origin's row and column it is right-minus-left and top-minus-bottom. *)
Theorem C29_balance_dark_axes_partial : forall a x0 y0 radius, (0 <= radius)%R -> 0 <= x0 < nr a -> 0 <= y0 < nc a ->
  energy_sum a <> 0%R -> (forall i j, in_arr a i j -> at2 a i j <> 0%R -> i <> y0 /\ j <> x0) ->
  exists bx by_ sx sy, quadrant_energy_balance a x0 y0 radius = Ok (bx, by_) /\
    disc_energy a x0 y0 radius (side_x x0) sx /\ disc_energy a x0 y0 radius (side_y y0) sy /\
    bx = (sx / energy_sum a)%R /\ by_ = (sy / energy_sum a)%R.
Proof.
  intros a x0 y0 radius Hr Hx Hy HE D. destruct (quad_value a x0 y0 radius Hr Hx Hy HE) as (bx & by_ & sx & sy & E & Dx & Dy & Ex & Ey).
  exists bx, by_, sx, sy. repeat split; auto.
  - eapply disc_energy_plain; [|exact Dx]. intros i j I N. destruct (D i j I N) as [D1 D2]. unfold code_side_x.
    rewrite (proj2 (Z.eqb_neq _ _) D1). ring.
  - eapply disc_energy_plain; [|exact Dy]. intros i j I N. destruct (D i j I N) as [D1 D2]. unfold code_side_y.
    rewrite (proj2 (Z.eqb_neq _ _) D2). ring.
Qed.
Print Assumptions C29_balance_dark_axes_partial.
Theorem C29_mirror : forall a x0 y0 r bx by_, energy_sum a <> 0%R -> quadrant_energy_balance a x0 y0 r = Ok (bx, by_) ->
  (nc a = 2 * x0 + 1 -> quadrant_energy_balance (flip_h a) x0 y0 r = Ok (- bx, by_)%R) /\
  (nr a = 2 * y0 + 1 -> quadrant_energy_balance (flip_v a) x0 y0 r = Ok (bx, - by_)%R).
Proof.
  intros a x0 y0 r bx by_ HE E. split; intros H; [apply quad_flip_h|apply quad_flip_v]; auto.
Qed.
Print Assumptions C29_mirror.
(** C29. Accepted arguments: the column origin is compared with the number of rows and vice versa ... *)
Theorem C29_accepts_partial : forall a x0 y0 r,
  (exists b, quadrant_energy_balance a x0 y0 r = Ok b) <-> (0 <= r)%R /\ 0 <= x0 < nr a /\ 0 <= y0 < nc a.
Proof. exact quad_reject. Qed.
Print Assumptions C29_accepts_partial.
(** ... so "every origin inside the image" (x0 a column, y0 a row) holds for square images only. *)
Theorem C29_inside_origin_refuted : ~ (forall a x0 y0 r, (0 <= r)%R -> 0 <= x0 < nc a -> 0 <= y0 < nr a ->
  exists b, quadrant_energy_balance a x0 y0 r = Ok b).
Proof.
  intros H. destruct (H (afull 2 5 1%R) 4 1 1%R) as [b E]; try (cbn; lia); try lra.
  assert (X : exists b, quadrant_energy_balance (afull 2 5 1%R) 4 1 1 = Ok b) by eauto.
  apply quad_reject in X. cbn in X. lia.
Qed.
Print Assumptions C29_inside_origin_refuted.
Theorem C29_plain_balance_refuted : ~ (forall a x0 y0 radius bx by_ sx,
  quadrant_energy_balance a x0 y0 radius = Ok (bx, by_) -> energy_sum a <> 0%R ->
  disc_energy a x0 y0 radius (side_x x0) sx -> bx = (sx / energy_sum a)%R).
Proof.
  intros H. destruct row_right_double as [b E].
  assert (D : exists s, disc_energy row_right 1 1 5 (side_x 1) s).
  { exists (rsum2 (fun i j => side_x 1 i j * at2 row_right i j)%R 3 3), (fun i j => (side_x 1 i j * at2 row_right i j)%R).
    split; [|reflexivity]. intros i j [Hi Hj]. split; auto. intros N. exfalso. apply N. unfold in_disc. cbn in Hi, Hj.
    assert (-1 <= IZR (j - 1) <= 1)%R by (split; apply IZR_le; lia).
    assert (-1 <= IZR (i - 1) <= 1)%R by (split; apply IZR_le; lia). nra. }
  destruct D as [s D]. pose proof (H _ _ _ _ _ _ _ E ltac:(rewrite row_right_energy; lra) D) as Q.
  rewrite (row_right_true s D) in Q. lra.
Qed.
Print Assumptions C29_plain_balance_refuted.
Example C29_ex : energy_sum row_right = 1%R /\ exists b, quadrant_energy_balance row_right 1 1 5 = Ok (2, b)%R.
Proof. split; [exact row_right_energy|exact row_right_double]. Qed.

(** C30. The result is the input minus a plane on the mask, zero off it, and orthogonal there to 1, x, y
    (whatever the rank of the fit). *)
Theorem C30_projection : forall lstsq a m, is_lstsq_oracle lstsq -> same_shape a m = true -> bool_mask m ->
  exists out, remove_piston_tip_tilt lstsq a m = Ok out /\ nr out = nr a /\ nc out = nc a /\
   (forall i j, in_arr m i j -> at2 m i j = 0%R -> at2 out i j = 0%R) /\
   (exists p q r, forall i j, in_arr m i j -> at2 m i j <> 0%R -> at2 out i j = (at2 a i j - plane_at p q r i j)%R) /\
   masked_sum m (at2 out) = 0%R /\
   masked_sum m (fun i j => IZR j * at2 out i j)%R = 0%R /\
   masked_sum m (fun i j => IZR i * at2 out i j)%R = 0%R.
Proof. intros lstsq a m O. exact (ptt_spec lstsq O a m). Qed.
Print Assumptions C30_projection.
Theorem C30_plane_to_zero : forall lstsq a m p q r, is_lstsq_oracle lstsq -> same_shape a m = true -> bool_mask m ->
  (forall i j, in_arr m i j -> at2 m i j <> 0%R -> at2 a i j = plane_at p q r i j) ->
  exists out, remove_piston_tip_tilt lstsq a m = Ok out /\ forall i j, in_arr m i j -> at2 out i j = 0%R.
Proof. intros lstsq a m p q r O. exact (ptt_plane_zero lstsq O a m p q r). Qed.
Print Assumptions C30_plane_to_zero.
Theorem C30_plane_invariant : forall lstsq a b m p q r out, is_lstsq_oracle lstsq ->
  same_shape a m = true -> same_shape b a = true -> bool_mask m ->
  (forall i j, in_arr m i j -> at2 m i j <> 0%R -> at2 b i j = (at2 a i j + plane_at p q r i j)%R) ->
  remove_piston_tip_tilt lstsq a m = Ok out ->
  exists out', remove_piston_tip_tilt lstsq b m = Ok out' /\ aeq out' out.
Proof. intros lstsq a b m p q r out O. exact (ptt_plane_invariant lstsq O a b m p q r out). Qed.
Print Assumptions C30_plane_invariant.
Theorem C30_idempotent : forall lstsq a m out, is_lstsq_oracle lstsq -> same_shape a m = true -> bool_mask m ->
  remove_piston_tip_tilt lstsq a m = Ok out ->
  exists out', remove_piston_tip_tilt lstsq out m = Ok out' /\ aeq out' out.
Proof. intros lstsq a m out O. exact (ptt_idempotent lstsq O a m out). Qed.
Print Assumptions C30_idempotent.
Theorem C30_least_residual : forall lstsq a m out p q r, is_lstsq_oracle lstsq -> same_shape a m = true -> bool_mask m ->
  remove_piston_tip_tilt lstsq a m = Ok out ->
  (masked_sum m (fun i j => at2 out i j ^ 2) <= masked_sum m (fun i j => (at2 a i j - plane_at p q r i j) ^ 2))%R.
Proof. intros lstsq a m out p q r O. exact (ptt_best lstsq O a m out p q r). Qed.
Print Assumptions C30_least_residual.
Theorem C30_shape_mismatch : forall lstsq a m, same_shape a m = false ->
  remove_piston_tip_tilt lstsq a m = Err ValueError.
Proof. exact ptt_shape. Qed.
Print Assumptions C30_shape_mismatch.
Example C30_ex : is_lstsq_oracle (@lstsq_ref (Z * Z)) /\ bool_mask row_right /\ same_shape (afull 3 3 7%R) row_right = true.
Proof.
  split; [exact lstsq_ref_ok|]. split; [|reflexivity]. intros i j [Hi Hj]. cbn in Hi, Hj.
  assert (i = 0 \/ i = 1 \/ i = 2) as [->|[->| ->]] by lia; assert (j = 0 \/ j = 1 \/ j = 2) as [->|[->| ->]] by lia; cbn; auto.
Qed.
