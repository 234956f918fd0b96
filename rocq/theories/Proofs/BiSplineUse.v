(** What the DM and mask routines compute when RectBivariateSpline is the not-a-knot bicubic spline. *)
From Coq Require Import ZArith Bool List Reals Lra Lia Psatz.
From Flocq Require Import Core.
From Verif.Base Require Import Py Arr Vec Sums Lstsq.
From Verif.Model Require Import PadCrop Math Noll Fits Fresnel Dm Conjugate MaskGen.
From Verif.Spec Require Import MathSpec DmSpec FitsSpec ConjugateSpec MaskGenSpec SplineSpec BiSplineSpec.
From Verif.Proofs Require Import PadCropP DmP MathP ConjugateP ConjugateCmdP MaskGenP MaskGenEx SplineP BiSpline.
Import ListNotations.
Open Scope Z_scope.

Lemma pixel_grows n : grows n (pixel n).
Proof. intros k l Hk Hl. unfold pixel. apply IZR_lt. lia. Qed.
Lemma scaled_grows n xs p : (0 < p)%R -> grows n xs -> grows n (fun k => xs k / p)%R.
Proof. intros Hp G k l Hk Hl. apply Rmult_lt_compat_r; [apply Rinv_0_lt_compat; auto|apply G; auto]. Qed.
Lemma centred_grows n p : (0 < p)%R -> grows n (centred n p).
Proof. intros Hp k l Hk Hl. apply Rmult_lt_compat_r; [apply Rinv_0_lt_compat; auto|]. assert (IZR k < IZR l)%R by (apply IZR_lt; lia). lra. Qed.
Lemma nearest_bounds lo hi x : (lo <= hi)%R -> (lo <= nearest_in lo hi x <= hi)%R.
Proof. intros H. unfold nearest_in, Rmax, Rmin. repeat destruct Rle_dec; lra. Qed.
Lemma nearest_id lo hi x : (lo <= x <= hi)%R -> nearest_in lo hi x = x.
Proof. intros H. unfold nearest_in, Rmax, Rmin. repeat destruct Rle_dec; lra. Qed.
Lemma nearest_scale lo hi x p : (0 < p)%R -> (nearest_in (lo / p) (hi / p) x * p = nearest_in lo hi (x * p))%R.
Proof.
  intros Hp. unfold nearest_in, Rmax, Rmin.
  assert (A : forall u v, (u <= v / p -> u * p <= v)%R) by (intros; apply le_div; auto).
  assert (B : forall u v, (u / p <= v -> u <= v * p)%R) by (intros; apply div_le; auto).
  assert (A' : forall u v, (u * p <= v -> u <= v / p)%R).
  { intros u v H. apply Rmult_le_reg_r with p; auto. replace (v / p * p)%R with v by (field; lra). auto. }
  assert (B' : forall u v, (u <= v * p -> u / p <= v)%R).
  { intros u v H. apply Rmult_le_reg_r with p; auto. replace (u / p * p)%R with u by (field; lra). auto. }
  assert (E : forall z, (z / p * p = z)%R) by (intros; field; lra).
  destruct (Rle_dec x (hi / p)) as [H1|H1]; destruct (Rle_dec (x * p) hi) as [H2|H2]; try (exfalso; auto; fail).
  - destruct (Rle_dec (lo / p) x) as [H3|H3]; destruct (Rle_dec lo (x * p)) as [H4|H4]; auto; exfalso; auto.
  - destruct (Rle_dec (lo / p) (hi / p)) as [H3|H3]; destruct (Rle_dec lo hi) as [H4|H4]; auto.
    + exfalso. apply H4. rewrite <- (E hi). auto.
    + exfalso. apply H3. apply B'. rewrite E. auto.
Qed.
Lemma pixel_mirror n k : 0 <= k < n -> pixel n (n - 1 - k) = (pixel n 0 + pixel n (n - 1) - pixel n k)%R.
Proof. intros H. unfold pixel. rewrite !minus_IZR. ring. Qed.

(** ** conv_surf_to_dm_cmd *)
Lemma conv_size ops surf dm h : conv_surf_to_dm_cmd ops surf dm = Ok h ->
  let s := co_rotate ops (if c_flipx dm then fliplr surf else surf) (c_thact dm) in 4 <= nr s /\ 4 <= nc s.
Proof.
  unfold conv_surf_to_dm_cmd. intros H.
  apply guard_ok in H as [_ H]. apply guard_ok in H as [_ H]. apply guard_ok in H as [_ H].
  apply guard_ok in H as [_ H]. apply guard_ok in H as [_ H]. apply guard_ok in H as [_ H].
  cbv zeta in H. apply guard_ok in H as [G7 H]. apply andb_true_iff in G7 as [A B]. apply Z.leb_le in A, B. auto.
Qed.
Lemma conv_spline ops surf dm h k f : is_solver (co_solve ops) -> conv_surf_to_dm_cmd ops surf dm = Ok h ->
  (forall A, build_prefilter (co_spline2 ops) (c_nact dm) (c_nact dm) (c_inf dm) (c_ppact_d dm) = Ok A ->
     nonsingular (sdim A) (sat A)) ->
  resample_inf_func (co_spline2 ops) (c_inf dm) (c_ppact_d dm) 1 = Ok k ->
  nr k mod 2 = 1 -> nc k mod 2 = 1 -> point_symmetric k ->
  c_thact dm = 0%R -> no_rotation (co_rotate ops) -> scipy_bicubic (co_bispline ops) ->
  bicubic_spline (pixel (nr surf)) (pixel (nc surf)) surf f ->
  forall r c, 0 <= r < c_nact dm -> 0 <= c < c_nact dm ->
  let Y := inside (nr surf) ((IZR r - (IZR (c_nact dm) - 1) / 2) * c_ppact_cy dm + c_dy dm)%R in
  let X := inside (nc surf) ((IZR c - (IZR (c_nact dm) - 1) / 2) * c_ppact_cx dm + c_dx dm)%R in
  dm_surface k h r c = f Y (if c_flipx dm then mirrored (nc surf) X else X).
Proof.
  intros Hs H Ns Rk O1 O2 Sy T0 Nr Gs Hf r c Hr Hc Y X.
  rewrite (conv_grid_ok _ _ _ _ _ Hs H Ns Rk O1 O2 Sy r c Hr Hc).
  pose proof (conv_size _ _ _ _ H) as [L1 L2].
  apply conv_inv in H as (_ & P2 & P1 & _). unfold conv_grid; cbn [at2]. rewrite T0 in *.
  set (g := if c_flipx dm then fliplr surf else surf) in *. destruct (Nr g) as (R1 & R2 & R3).
  assert (F1 : nr g = nr surf) by (unfold g; destruct (c_flipx dm); reflexivity).
  assert (F2 : nc g = nc surf) by (unfold g; destruct (c_flipx dm); reflexivity).
  set (s := co_rotate ops g 0) in *.
  set (F := fun y x => f y (if c_flipx dm then mirrored (nc surf) x else x)).
  assert (HF : bicubic_spline (pixel (nr s)) (pixel (nc s)) g F).
  { rewrite R1, R2, F1, F2. unfold F, g. destruct (c_flipx dm); [|exact Hf].
    apply (bicubic_flip (pixel (nr surf)) (pixel (nc surf)) surf f); auto; [lia|]. intros i Hi. apply pixel_mirror. auto. }
  pose proof (bicubic_scale _ _ _ _ _ _ P1 P2 HF) as HF'.
  destruct (Gs (surf_axis (nr s) (c_ppact_cy dm)) (surf_axis (nc s) (c_ppact_cx dm)) s L1 L2) as [B K].
  { intros u v Hu Hv. rewrite !surf_axis_eq. apply Rmult_lt_compat_r; [apply Rinv_0_lt_compat; auto|]. apply IZR_lt. lia. }
  { intros u v Hu Hv. rewrite !surf_axis_eq. apply Rmult_lt_compat_r; [apply Rinv_0_lt_compat; auto|]. apply IZR_lt. lia. }
  rewrite K.
  assert (B' : bicubic_spline (fun i => pixel (nr s) i / c_ppact_cy dm)%R (fun j => pixel (nc s) j / c_ppact_cx dm)%R s
     (co_bispline ops (surf_axis (nr s) (c_ppact_cy dm)) (surf_axis (nc s) (c_ppact_cx dm)) s)).
  { apply (bicubic_grid (surf_axis (nr s) (c_ppact_cy dm)) (surf_axis (nc s) (c_ppact_cx dm))); auto; [..|lia]; intros; apply surf_axis_eq. }
  rewrite !surf_axis_eq. fold (pixel (nr s) 0) (pixel (nr s) (nr s - 1)) (pixel (nc s) 0) (pixel (nc s) (nc s - 1)).
  set (y := (- (IZR (c_nact dm) - 1) / 2 + IZR r + c_dy dm / c_ppact_cy dm)%R).
  set (x := (- (IZR (c_nact dm) - 1) / 2 + IZR c + c_dx dm / c_ppact_cx dm)%R).
  assert (Hp : forall n, 4 <= n -> (pixel n 0 <= pixel n (n - 1))%R) by (intros n Hn; left; apply pixel_grows; lia).
  assert (Hq : forall n p, 4 <= n -> (0 < p)%R -> (pixel n 0 / p <= pixel n (n - 1) / p)%R).
  { intros n p Hn Hpp. apply Rmult_le_compat_r; [left; apply Rinv_0_lt_compat; auto|auto]. }
  rewrite (bicubic_unique _ _ s g _ _ ltac:(repeat split; auto) L1 L2 (scaled_grows _ _ _ P1 (pixel_grows _))
     (scaled_grows _ _ _ P2 (pixel_grows _)) B' HF' _ _ (nearest_bounds _ _ y (Hq _ _ L1 P1)) (nearest_bounds _ _ x (Hq _ _ L2 P2))).
  rewrite !nearest_scale by auto.
  replace (y * c_ppact_cy dm)%R with ((IZR r - (IZR (c_nact dm) - 1) / 2) * c_ppact_cy dm + c_dy dm)%R by (unfold y; field; lra).
  replace (x * c_ppact_cx dm)%R with ((IZR c - (IZR (c_nact dm) - 1) / 2) * c_ppact_cx dm + c_dx dm)%R by (unfold x; field; lra).
  rewrite R1, R2, F1, F2. reflexivity.
Qed.

(** ** dmhtoph *)
Lemma dm_spline ops nrow ncol dmin nact inf ppd cx cy fx out f : wf inf -> still ops -> scipy_bicubic_dm ops ->
  dmhtoph ops nrow ncol dmin nact inf ppd cx cy 0 0 0 fx = Ok out ->
  let n := (nact - 1) * ppd + nr inf in
  let hw := ((IZR n - 1) / 2 / IZR ppd)%R in
  bicubic_spline (centred n (IZR ppd)) (centred n (IZR ppd)) (Arr n n (superposition nact ppd dmin inf)) f ->
  nr out = nrow /\ nc out = ncol /\
  forall i j, in_arr out i j ->
    let X := (IZR (if fx then - (j - ncol / 2) else j - ncol / 2) / cx)%R in
    let Y := (IZR (i - nrow / 2) / cy)%R in
    ((Rabs X <= hw /\ Rabs Y <= hw)%R -> at2 out i j = f Y X) /\
    (~ (Rabs X <= hw /\ Rabs Y <= hw)%R -> at2 out i j = 0%R).
Proof.
  intros W S B H n hw Hf.
  pose proof (dmhtoph_ok ops nrow ncol dmin nact inf ppd cx cy 0 0 0 fx out W H) as (A & G & _).
  destruct A as (_ & _ & _ & G4 & _).
  destruct (dmhtoph_sampling ops nrow ncol dmin nact inf ppd cx cy fx out W S H) as (d & D1 & D2 & D3 & E1 & E2 & V).
  split; [auto|split; [auto|]]. intros i j I X Y. destruct (V i j I) as [V1 V2]. split; [|exact V2].
  intros K. pose proof (V1 K) as V3. fold n in V3. rewrite V3. fold X Y.
  assert (Ip : (0 < IZR ppd)%R) by (apply IZR_lt; auto).
  assert (C0 : centred n (IZR ppd) 0 = (- hw)%R) by (unfold centred, hw; field; lra).
  assert (C1 : centred n (IZR ppd) (n - 1) = hw) by (unfold centred, hw; rewrite minus_IZR; field; lra).
  assert (L : 4 <= n) by exact G.
  assert (Rg : forall z, (Rabs z <= hw)%R -> (centred n (IZR ppd) 0 <= z <= centred n (IZR ppd) (n - 1))%R).
  { intros z Hz. rewrite C0, C1. apply Rabs_le_inv. exact Hz. }
  pose proof (B n ppd d L G4 D1 D2) as Bd.
  refine (bicubic_unique _ _ d _ _ f _ _ _ _ _ Bd Hf Y X _ _).
  - fold n in D1, D2. repeat split; cbn; auto.
  - fold n in D1. lia.
  - fold n in D2. lia.
  - rewrite D1. apply centred_grows. auto.
  - rewrite D2. apply centred_grows. auto.
  - rewrite D1. apply Rg, K.
  - rewrite D2. apply Rg, K.
Qed.

(** ** resample_inf_func *)
Lemma kernel_spline_ok sp inf p q k f : scipy_bicubic_kernel sp -> resample_inf_func sp inf p q = Ok k -> p <> q ->
  bicubic_spline (centred (nr inf) p) (centred (nc inf) p) inf f ->
  nr k = 2 * Zfloor (IZR (nr inf) * q / (2 * p)) + 1 /\ nc k = 2 * Zfloor (IZR (nc inf) * q / (2 * p)) + 1 /\
  forall i j, in_arr k i j ->
    at2 k i j = f (nearest_in (centred (nr inf) p 0) (centred (nr inf) p (nr inf - 1)) (centred (nr k) q i))
                  (nearest_in (centred (nc inf) p 0) (centred (nc inf) p (nc inf - 1)) (centred (nc k) q j)).
Proof.
  intros B H N Hf. unfold resample_inf_func in H. apply guard_ok in H as [G1 H]. apply guard_ok in H as [G2 H].
  apply pos_real_iff in G1, G2. destruct (Req_EM_T p q) as [E|_]; [contradiction|]. apply guard_ok in H as [G3 H].
  apply andb_true_iff in G3 as [L1 L2]. apply Z.leb_le in L1, L2. injection H as <-. cbn [nr nc at2].
  assert (S : forall n, resampled_size n p q = 2 * Zfloor (IZR n * q / (2 * p)) + 1).
  { intros n. unfold resampled_size. do 3 f_equal. field. lra. }
  split; [apply S|]. split; [apply S|]. intros i j _.
  destruct (B p inf L1 L2 G1) as [Bi K]. rewrite K.
  apply (bicubic_unique (centred (nr inf) p) (centred (nc inf) p) inf inf); auto using aeq_refl, centred_grows;
    apply nearest_bounds; left; apply centred_grows; auto; lia.
Qed.

(** ** rotate_shift_downsample *)
Lemma mask_spline rotate spline (a : arr R) mag xo yo padFac (flip : bool) h H f : wf a -> scipy_bicubic_vec spline ->
  (0 < mag <= 1)%R -> (1 <= padFac)%R ->
  least_odd_above (padFac * IZR (Z.max (nr a) (nc a))) (2 * h + 1) ->
  least_odd_above (IZR (2 * h + 1) * mag + 2 + 2 * Rmax (Rabs xo) (Rabs yo)) (2 * H + 1) -> 4 <= 2 * h + 1 ->
  bicubic_spline (fun i => IZR (i - h)) (fun j => IZR (j - h))
    (Arr (2 * h + 1) (2 * h + 1) (fun i j => smoothed h (/ (2 * mag)) (flipped a flip) (i - h) (j - h))) f ->
  exists out, rotate_shift_downsample rotate spline a 0 mag xo yo padFac flip = Ok out /\
  nr out = 2 * (H + 1) /\ nc out = 2 * (H + 1) /\
  forall dy dx, - H <= dy <= H -> - H <= dx <= H ->
    at2 out (H + 1 + dy) (H + 1 + dx) =
    f (nearest_in (- IZR h) (IZR h) ((IZR dy - yo) / mag)) (nearest_in (- IZR h) (IZR h) ((IZR dx - xo) / mag)).
Proof.
  intros W B Hm Hp Lh LH Hh Hf.
  destruct (value_lem rotate spline a 0 mag xo yo padFac flip h H W Hm Hp Lh LH Hh)
    as (out & A & g & E & A1 & A2 & A3 & _ & [g1 g2] & O1 & O2 & _ & V).
  exists out. split; [auto|split; [auto|split; [auto|]]]. intros dy dx Hy Hx. rewrite V by auto.
  destruct (Req_EM_T 0 0) as [_|]; [|congruence].
  assert (Gg : grows (2 * h + 1) (vat g)) by (intros k l Hk Hl; rewrite !g2 by lia; apply IZR_lt; lia).
  destruct (B g g A) as [Bi K]; try lia; try (rewrite ?A1, ?A2; exact Gg).
  rewrite K. rewrite A1, A2, !g2 by lia.
  replace (0 - h) with (- h) by lia. replace (2 * h + 1 - 1 - h) with h by lia. rewrite opp_IZR.
  assert (Hl : (- IZR h <= IZR h)%R) by (assert (0 <= IZR h)%R by (apply IZR_le; lia); lra).
  assert (Gi : grows (2 * h + 1) (fun i => IZR (i - h))) by (intros k l Hk Hl'; apply IZR_lt; lia).
  assert (Bg : bicubic_spline (fun i => IZR (i - h)) (fun j => IZR (j - h)) A (spline g g A)).
  { apply (bicubic_grid (vat g) (vat g)); auto; try lia; intros; apply g2; lia. }
  refine (bicubic_unique _ _ A _ _ f _ _ _ _ _ Bg Hf _ _ _ _); try lia; try (rewrite ?A1, ?A2; exact Gi).
  - split; [exact A1|split; [exact A2|]]. exact A3.
  - rewrite A1. replace (0 - h) with (- h) by lia. replace (2 * h + 1 - 1 - h) with h by lia. rewrite opp_IZR. apply nearest_bounds. auto.
  - rewrite A2. replace (0 - h) with (- h) by lia. replace (2 * h + 1 - 1 - h) with h by lia. rewrite opp_IZR. apply nearest_bounds. auto.
Qed.
