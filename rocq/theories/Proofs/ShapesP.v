(** Proofs about antialiased shapes. *)
From Coq Require Import ZArith Bool List Reals Lra Lia Psatz Permutation.
From Coquelicot Require Rcomplements.
From Verif.Base Require Import Py Arr Sums Trig.
From Verif.Model Require Import Fits Shapes.
From Verif.Spec Require Import ShapesSpec.
From Verif.Proofs Require Import FitsP.
Import ListNotations.
Open Scope Z_scope.

(** ** Coordinates *)
Lemma linspace_unit a n i : linspace a (a + (IZR n - 1)) n i = if n =? 1 then a else (a + IZR i)%R.
Proof.
  unfold linspace. destruct (Z.eqb_spec n 1) as [|N]; auto.
  replace (a + (IZR n - 1) - a)%R with (IZR n - 1)%R by ring.
  assert (IZR n - 1 <> 0)%R by (rewrite <- minus_IZR; apply not_0_IZR; lia). field. auto.
Qed.
Lemma axis_px n off i : 0 < n -> 0 <= i < n -> axis n off i = px n off i.
Proof.
  intros Hn Hi. unfold axis, px. rewrite minus_IZR. destruct (Z.even n) eqn:E.
  - apply Z.even_spec in E as [k ->]. replace (2 * k / 2) with k by (rewrite Z.mul_comm, Z.div_mul; lia).
    replace (IZR (2 * k) / 2 - 1)%R with (- (IZR (2 * k) / 2) + (IZR (2 * k) - 1))%R by field.
    rewrite linspace_unit. destruct (Z.eqb_spec (2 * k) 1); [lia|]. rewrite mult_IZR. field.
  - assert (O : Z.odd n = true) by (rewrite <- Z.negb_even, E; auto). apply Z.odd_spec in O as [k ->].
    replace ((2 * k + 1) / 2) with k by (rewrite Z.mul_comm, Z.div_add_l by lia; cbn; lia).
    replace ((IZR (2 * k + 1) - 1) / 2)%R with (- ((IZR (2 * k + 1) - 1) / 2) + (IZR (2 * k + 1) - 1))%R at 2 by field.
    rewrite linspace_unit. destruct (Z.eqb_spec (2 * k + 1) 1) as [K|K].
    + assert (k = 0) as -> by lia. assert (i = 0) as -> by lia. cbn. lra.
    + rewrite plus_IZR, mult_IZR. field.
Qed.
Lemma xUp_sub ns q : 0 < ns -> 0 <= q < ns -> xUp ns q = sub ns q.
Proof.
  intros Hn Hq. unfold xUp, sub.
  assert (0 < IZR ns)%R by (apply IZR_lt; auto).
  replace ((IZR ns - 1) / 2)%R with (- ((IZR ns - 1) / 2) + (IZR ns - 1))%R at 2 by field.
  rewrite linspace_unit. destruct (Z.eqb_spec ns 1) as [->|].
  - assert (q = 0) as -> by lia. field.
  - field. lra.
Qed.
Lemma sub_bound ns q : 0 < ns -> 0 <= q < ns -> (- / 2 < sub ns q < / 2)%R.
Proof.
  intros Hn Hq. unfold sub. assert (0 < IZR ns)%R by (apply IZR_lt; auto).
  assert (0 <= IZR q)%R by (apply IZR_le; lia).
  assert (IZR q + 1 <= IZR ns)%R by (rewrite <- plus_IZR; apply IZR_le; lia).
  split; apply Rmult_lt_reg_r with (2 * IZR ns)%R; try lra;
    unfold Rdiv; rewrite Rmult_assoc, Rinv_l by lra; lra.
Qed.
Lemma sub_sym ns q : 0 < ns -> sub ns (ns - 1 - q) = (- sub ns q)%R.
Proof.
  intros Hn. unfold sub. assert (0 < IZR ns)%R by (apply IZR_lt; auto). rewrite !minus_IZR. field. lra.
Qed.
Lemma pixel_dx_ok nx xo : 1 < nx -> pixel_dx nx xo = Ok 1%R.
Proof.
  intros H. unfold pixel_dx. rewrite (proj2 (Z.ltb_lt _ _) H). cbn [guard bind]. f_equal.
  rewrite !axis_px by lia. unfold px. rewrite !minus_IZR. ring.
Qed.
Lemma pixel_dx_err nx xo : nx <= 1 -> pixel_dx nx xo = Err IndexError.
Proof. intros H. unfold pixel_dx. rewrite (proj2 (Z.ltb_ge _ _) H). reflexivity. Qed.

(** ** Coverage *)
Lemma coverage_unique S ns x y v w : coverage S ns x y v -> coverage S ns x y w -> v = w.
Proof.
  intros (f & F & ->) (g & G & ->). f_equal. apply rsum2_ext. intros p q Hp Hq.
  destruct (F p q Hp Hq) as [F1 F2], (G p q Hp Hq) as [G1 G2].
  destruct (Classical_Prop.classic (S (x + sub ns q)%R (y + sub ns p)%R)) as [H|H].
  - rewrite F1, G1; auto.
  - rewrite F2, G2; auto.
Qed.
Lemma rsum2_const c n m : 0 <= n -> 0 <= m -> rsum2 (fun _ _ => c) n m = (IZR n * IZR m * c)%R.
Proof. intros Hn Hm. unfold rsum2. rewrite !rsum_const by lia. ring. Qed.
Lemma coverage_mono S S' ns x y v v' : 0 < ns -> coverage S ns x y v -> coverage S' ns x y v' ->
  (forall s t, (- / 2 < s < / 2)%R -> (- / 2 < t < / 2)%R -> S (x + s)%R (y + t)%R -> S' (x + s)%R (y + t)%R) -> (v <= v')%R.
Proof.
  intros Hn (f & F & ->) (g & G & ->) I. assert (0 < IZR ns)%R by (apply IZR_lt; auto).
  apply Rmult_le_compat_r; [left; apply Rinv_0_lt_compat, Rmult_lt_0_compat; auto|].
  apply rsum2_le. intros p q Hp Hq.
  destruct (F p q Hp Hq) as [F1 F2], (G p q Hp Hq) as [G1 G2].
  destruct (Classical_Prop.classic (S (x + sub ns q)%R (y + sub ns p)%R)) as [H0|H0].
  - rewrite F1 by auto. rewrite G1 by (apply I; auto using sub_bound). lra.
  - rewrite F2 by auto. destruct (Classical_Prop.classic (S' (x + sub ns q)%R (y + sub ns p)%R)) as [H1|H1].
    + rewrite G1 by auto. lra.
    + rewrite G2 by auto. lra.
Qed.
Lemma coverage_range S ns x y v : 0 < ns -> coverage S ns x y v -> (0 <= v <= 1)%R.
Proof.
  intros Hn C. assert (N : (0 < IZR ns)%R) by (apply IZR_lt; auto).
  assert (C0 : coverage (fun _ _ => False) ns x y 0%R).
  { exists (fun _ _ => 0%R). split; [intros; split; [tauto|auto]|]. rewrite rsum2_zero. field. lra. }
  assert (C1 : coverage (fun _ _ => True) ns x y 1%R).
  { exists (fun _ _ => 1%R). split; [intros; split; [auto|tauto]|]. rewrite rsum2_const by lia. field. lra. }
  split; [eapply (coverage_mono _ _ ns x y); [auto|exact C0|exact C|cbn; intros; tauto]|eapply (coverage_mono _ _ ns x y); [auto|exact C|exact C1|cbn; intros; tauto]].
Qed.
Lemma coverage_all (S : R -> R -> Prop) ns x y : 0 < ns ->
  (forall s t, (- / 2 < s < / 2)%R -> (- / 2 < t < / 2)%R -> S (x + s)%R (y + t)%R) -> coverage S ns x y 1%R.
Proof.
  intros Hn H. assert (N : (0 < IZR ns)%R) by (apply IZR_lt; auto).
  exists (fun _ _ => 1%R). split.
  - intros p q Hp Hq. split; auto. intros Q. exfalso. apply Q, H; apply sub_bound; auto.
  - rewrite rsum2_const by lia. field. lra.
Qed.
Lemma coverage_none (S : R -> R -> Prop) ns x y : 0 < ns ->
  (forall s t, (- / 2 < s < / 2)%R -> (- / 2 < t < / 2)%R -> ~ S (x + s)%R (y + t)%R) -> coverage S ns x y 0%R.
Proof.
  intros Hn H. assert (N : (0 < IZR ns)%R) by (apply IZR_lt; auto).
  exists (fun _ _ => 0%R). split.
  - intros p q Hp Hq. split; auto. intros Q. exfalso. apply (H (sub ns q) (sub ns p)); auto; apply sub_bound; auto.
  - rewrite rsum2_zero. field. lra.
Qed.
Lemma gray_coverage (S : R -> R -> Prop) inside ns x y : 0 < ns -> (forall u v, inside u v = true <-> S u v) ->
  coverage S ns x y (gray inside ns x y).
Proof.
  intros Hn H. exists (fun p q => if inside (x + sub ns q)%R (y + sub ns p)%R then 1%R else 0%R). split.
  - intros p q Hp Hq. specialize (H (x + sub ns q)%R (y + sub ns p)%R).
    destruct (inside _ _); split; auto; intros Q; exfalso.
    + apply Q, H. auto.
    + apply H in Q. discriminate.
  - unfold gray. rewrite mult_IZR. f_equal. apply rsum2_ext. intros p q Hp Hq.
    rewrite !xUp_sub, !(Rplus_comm (sub _ _)) by auto. reflexivity.
Qed.
Lemma edge_mask_coverage (S : R -> R -> Prop) one zero inside ns x y : 0 < ns -> (forall u v, inside u v = true <-> S u v) ->
  (zero x y = true -> forall s t, (- / 2 < s < / 2)%R -> (- / 2 < t < / 2)%R -> ~ S (x + s)%R (y + t)%R) ->
  (one x y = true -> forall s t, (- / 2 < s < / 2)%R -> (- / 2 < t < / 2)%R -> S (x + s)%R (y + t)%R) ->
  coverage S ns x y (edge_mask one zero inside ns x y).
Proof.
  intros Hn HS H0 H1. unfold edge_mask. destruct (zero x y); [apply coverage_none; auto|].
  destruct (one x y); [apply coverage_all; auto|]. apply gray_coverage; auto.
Qed.
Lemma edge_mask_range one zero inside ns x y : 0 < ns -> (0 <= edge_mask one zero inside ns x y <= 1)%R.
Proof.
  intros Hn. unfold edge_mask. destruct (zero x y); [lra|]. destruct (one x y); [lra|].
  apply (coverage_range (fun u v => inside u v = true) ns x y); auto. apply gray_coverage; auto. tauto.
Qed.

(** ** Plane norm *)
Definition nrm (x y : R) : R := sqrt (x ^ 2 + y ^ 2).
Lemma nrm_nonneg x y : (0 <= nrm x y)%R. Proof. apply sqrt_pos. Qed.
Lemma nrm_sq x y : (nrm x y ^ 2 = x ^ 2 + y ^ 2)%R.
Proof. unfold nrm. apply pow2_sqrt. pose proof (pow2_ge_0 x). pose proof (pow2_ge_0 y). lra. Qed.
Lemma le_of_sq a b : (0 <= b -> a ^ 2 <= b ^ 2 -> a <= b)%R.
Proof. intros Hb H. destruct (Rle_or_lt a b); auto. nra. Qed.
Lemma nrm_triangle x y s t : (nrm (x + s) (y + t) <= nrm x y + nrm s t)%R.
Proof.
  apply le_of_sq; [pose proof (nrm_nonneg x y); pose proof (nrm_nonneg s t); lra|].
  assert (C : (x * s + y * t <= nrm x y * nrm s t)%R).
  { apply le_of_sq; [apply Rmult_le_pos; apply nrm_nonneg|].
    rewrite Rpow_mult_distr, !nrm_sq. pose proof (pow2_ge_0 (x * t - y * s)). nra. }
  rewrite nrm_sq. pose proof (nrm_sq x y). pose proof (nrm_sq s t). nra.
Qed.
Lemma nrm_opp x y : nrm (- x) (- y) = nrm x y.
Proof. unfold nrm. f_equal. ring. Qed.
Lemma nrm_reverse x y s t : (nrm x y - nrm s t <= nrm (x + s) (y + t))%R.
Proof.
  pose proof (nrm_triangle (x + s) (y + t) (- s) (- t)) as H. rewrite nrm_opp in H.
  replace (x + s + - s)%R with x in H by ring. replace (y + t + - t)%R with y in H by ring. lra.
Qed.
Lemma nrm_sub s t : (- / 2 < s < / 2 -> - / 2 < t < / 2 -> nrm s t < sqrt 2)%R.
Proof. intros Hs Ht. apply sqrt_lt_1_alt. pose proof (pow2_ge_0 s). pose proof (pow2_ge_0 t). split; nra. Qed.
Lemma disc_nrm r x y : (0 <= r -> (nrm x y <= r <-> disc r x y))%R.
Proof.
  intros Hr. unfold disc. rewrite <- nrm_sq. pose proof (nrm_nonneg x y). split; intros L; [nra|].
  apply le_of_sq; auto.
Qed.
Lemma nrm_alt x y : sqrt (x * x + y * y) = nrm x y.
Proof. unfold nrm. f_equal. ring. Qed.

(** ** circle *)
Lemma at2_dark isDark m i j : at2 (dark isDark m) i j = (if isDark then 1 - at2 m i j else at2 m i j)%R.
Proof. destruct isDark; reflexivity. Qed.
Lemma dark_shape isDark m : nr (dark isDark m) = nr m /\ nc (dark isDark m) = nc m.
Proof. destruct isDark; auto. Qed.
Lemma circle_ok nx ny r xo yo ns isDark : valid_circle nx ny r ns ->
  exists m, circle nx ny r xo yo ns isDark = Ok m /\ nr m = ny /\ nc m = nx /\
  forall i j, 0 <= i < ny -> 0 <= j < nx ->
    exists v, coverage (disc r) ns (px nx xo j) (px ny yo i) v /\ at2 m i j = if isDark then (1 - v)%R else v.
Proof.
  intros (Hnx & Hny & Hr & Hns). unfold circle.
  rewrite (proj2 (Z.ltb_lt 0 nx)), (proj2 (Z.ltb_lt 0 ny)), (proj2 (Z.ltb_lt 0 ns)) by lia.
  rewrite (proj2 (Rltb_iff 0 r)) by auto. cbn [guard bind]. rewrite pixel_dx_ok by auto. cbn [bind].
  eexists. split; [reflexivity|].
  split; [apply dark_shape|split; [apply dark_shape|]].
  intros i j Hi Hj. rewrite at2_dark. cbn [at2]. rewrite !axis_px by lia.
  eexists. split; [|reflexivity]. apply edge_mask_coverage; auto.
  - intros u v. rewrite Rleb_iff. apply disc_nrm. lra.
  - intros Z0 s t Hs Ht D. apply Rltb_iff in Z0. rewrite nrm_alt, Rabs_right in Z0 by (apply Rle_ge, nrm_nonneg).
    apply disc_nrm in D; [|lra].
    pose proof (nrm_reverse (px nx xo j) (px ny yo i) s t). pose proof (nrm_sub s t Hs Ht). lra.
  - intros Z0 s t Hs Ht. apply Rltb_iff in Z0. rewrite nrm_alt, Rabs_right in Z0 by (apply Rle_ge, nrm_nonneg).
    apply disc_nrm; [lra|].
    pose proof (nrm_triangle (px nx xo j) (px ny yo i) s t). pose proof (nrm_sub s t Hs Ht). lra.
Qed.
Lemma circle_err nx ny r xo yo ns isDark :
  (nx <= 0 \/ ny <= 0 \/ (r <= 0)%R \/ ns <= 0 -> circle nx ny r xo yo ns isDark = Err TypeError) /\
  (nx = 1 -> 0 < ny -> (0 < r)%R -> 0 < ns -> circle nx ny r xo yo ns isDark = Err IndexError).
Proof.
  split.
  - intros H. unfold circle. destruct (Z.ltb_spec 0 nx); [|reflexivity]. destruct (Z.ltb_spec 0 ny); [|reflexivity].
    destruct (Rltb 0 r) eqn:R0; [|reflexivity]. apply Rltb_iff in R0.
    destruct (Z.ltb_spec 0 ns); [|reflexivity]. destruct H as [H|[H|[H|H]]]; try lia. lra.
  - intros -> H1 H2 H3. unfold circle.
    rewrite (proj2 (Z.ltb_lt 0 ny)), (proj2 (Z.ltb_lt 0 ns)), (proj2 (Rltb_iff 0 r)) by auto. reflexivity.
Qed.
Lemma circle_range nx ny r xo yo ns isDark m : circle nx ny r xo yo ns isDark = Ok m ->
  valid_circle nx ny r ns.
Proof.
  intros E. unfold circle in E.
  apply guard_ok in E as [G1 E]. apply guard_ok in E as [G2 E]. apply guard_ok in E as [G3 E]. apply guard_ok in E as [G4 E].
  apply Z.ltb_lt in G1, G2, G4. apply Rltb_iff in G3.
  destruct (Z_le_gt_dec nx 1) as [L|L]; [rewrite pixel_dx_err in E by auto; discriminate|].
  repeat split; auto; lia.
Qed.
Lemma circle_complement nx ny r xo yo ns m m' : circle nx ny r xo yo ns false = Ok m ->
  circle nx ny r xo yo ns true = Ok m' -> aeq m' (amap (fun v => 1 - v)%R m).
Proof.
  intros E E'. pose proof (circle_range _ _ _ _ _ _ _ _ E) as V.
  destruct (circle_ok nx ny r xo yo ns false V) as (a & Ea & Ra & Ca & Va). rewrite E in Ea. injection Ea as <-.
  destruct (circle_ok nx ny r xo yo ns true V) as (b & Eb & Rb & Cb & Vb). rewrite E' in Eb. injection Eb as <-.
  split; [cbn; congruence|split; [cbn; congruence|]]. intros i j [Hi Hj]. rewrite Rb in Hi. rewrite Cb in Hj.
  destruct (Va i j Hi Hj) as (v & C1 & Ev). destruct (Vb i j Hi Hj) as (w & C2 & Ew).
  cbn [amap at2]. rewrite Ev, Ew. rewrite (coverage_unique _ _ _ _ _ _ C1 C2). reflexivity.
Qed.
Lemma circle_mono nx ny r r' xo yo ns m m' : (r <= r')%R -> circle nx ny r xo yo ns false = Ok m ->
  circle nx ny r' xo yo ns false = Ok m' -> forall i j, in_arr m i j -> (at2 m i j <= at2 m' i j)%R.
Proof.
  intros L E E'. pose proof (circle_range _ _ _ _ _ _ _ _ E) as V. pose proof (circle_range _ _ _ _ _ _ _ _ E') as V'.
  destruct (circle_ok nx ny r xo yo ns false V) as (a & Ea & Ra & Ca & Va). rewrite E in Ea. injection Ea as <-.
  destruct (circle_ok nx ny r' xo yo ns false V') as (b & Eb & Rb & Cb & Vb). rewrite E' in Eb. injection Eb as <-.
  intros i j [Hi Hj]. rewrite Ra in Hi. rewrite Ca in Hj.
  destruct (Va i j Hi Hj) as (v & C1 & ->). destruct (Vb i j Hi Hj) as (w & C2 & ->).
  destruct V as (_ & _ & Hr & Hns). apply (coverage_mono _ _ _ _ _ _ _ Hns C1 C2).
  unfold disc. intros. nra.
Qed.

(** ** Sharper version: conditions on subpixel centres only *)
Lemma sub_bound_sharp ns q : 0 < ns -> 0 <= q < ns -> (Rabs (sub ns q) <= (1 - / IZR ns) / 2)%R.
Proof.
  intros Hn Hq. unfold sub. assert (0 < IZR ns)%R by (apply IZR_lt; auto).
  assert (0 <= IZR q)%R by (apply IZR_le; lia).
  assert (IZR q + 1 <= IZR ns)%R by (rewrite <- plus_IZR; apply IZR_le; lia).
  assert (E : ((1 - / IZR ns) / 2 = (IZR ns - 1) / (2 * IZR ns))%R) by (field; lra).
  rewrite E. apply Rabs_le. assert (0 < / (2 * IZR ns))%R by (apply Rinv_0_lt_compat; lra).
  unfold Rdiv. split; nra.
Qed.
Lemma edge_mask_coverage_sub (S : R -> R -> Prop) one zero inside ns x y : 0 < ns -> (forall u v, inside u v = true <-> S u v) ->
  (zero x y = true -> forall s t, (Rabs s <= (1 - / IZR ns) / 2)%R -> (Rabs t <= (1 - / IZR ns) / 2)%R -> ~ S (x + s)%R (y + t)%R) ->
  (one x y = true -> forall s t, (Rabs s <= (1 - / IZR ns) / 2)%R -> (Rabs t <= (1 - / IZR ns) / 2)%R -> S (x + s)%R (y + t)%R) ->
  coverage S ns x y (edge_mask one zero inside ns x y).
Proof.
  intros Hn HS H0 H1. assert (N : (0 < IZR ns)%R) by (apply IZR_lt; auto).
  unfold edge_mask. destruct (zero x y).
  { exists (fun _ _ => 0%R). split.
    - intros p q Hp Hq. split; auto. intros Q. exfalso. apply (H0 eq_refl (sub ns q) (sub ns p)); auto using sub_bound_sharp.
    - rewrite rsum2_zero. field. lra. }
  destruct (one x y); [|apply gray_coverage; auto].
  exists (fun _ _ => 1%R). split.
  - intros p q Hp Hq. split; auto. intros Q. exfalso. apply Q, H1; auto using sub_bound_sharp.
  - rewrite rsum2_const by lia. field. lra.
Qed.

(** ** ellipse *)
Lemma ellipse_rho_level rx ry t x y : (0 < rx)%R -> (0 < ry)%R -> ellipse_rho rx ry t x y = ellipse_level rx ry t x y.
Proof. intros Hx Hy. unfold ellipse_rho, ellipse_level. f_equal. f_equal. field. lra. Qed.
Lemma level_nrm rx ry t x y : ellipse_level rx ry t x y = (/ 2 * nrm ((x * cos t + y * sin t) / rx) ((y * cos t - x * sin t) / ry))%R.
Proof. reflexivity. Qed.
Lemma level_nonneg rx ry t x y : (0 <= ellipse_level rx ry t x y)%R.
Proof. rewrite level_nrm. pose proof (nrm_nonneg ((x * cos t + y * sin t) / rx) ((y * cos t - x * sin t) / ry)). lra. Qed.
Lemma level_set rx ry t x y : (ellipse_level rx ry t x y <= / 2)%R <-> ellipse_set rx ry t x y.
Proof.
  rewrite level_nrm. unfold ellipse_set. rewrite <- nrm_sq.
  pose proof (nrm_nonneg ((x * cos t + y * sin t) / rx) ((y * cos t - x * sin t) / ry)).
  split; intros L; nra.
Qed.
Lemma level_triangle rx ry t x y u v : (0 < rx)%R -> (0 < ry)%R ->
  (ellipse_level rx ry t (x + u) (y + v) <= ellipse_level rx ry t x y + ellipse_level rx ry t u v)%R.
Proof.
  intros Hx Hy. rewrite !level_nrm.
  replace (((x + u) * cos t + (y + v) * sin t) / rx)%R with ((x * cos t + y * sin t) / rx + (u * cos t + v * sin t) / rx)%R by (field; lra).
  replace (((y + v) * cos t - (x + u) * sin t) / ry)%R with ((y * cos t - x * sin t) / ry + (v * cos t - u * sin t) / ry)%R by (field; lra).
  pose proof (nrm_triangle ((x * cos t + y * sin t) / rx) ((y * cos t - x * sin t) / ry) ((u * cos t + v * sin t) / rx) ((v * cos t - u * sin t) / ry)). lra.
Qed.
Lemma level_opp rx ry t x y : (0 < rx)%R -> (0 < ry)%R -> ellipse_level rx ry t (- x) (- y) = ellipse_level rx ry t x y.
Proof. intros Hx Hy. unfold ellipse_level. f_equal. f_equal. field. lra. Qed.
Lemma level_reverse rx ry t x y u v : (0 < rx)%R -> (0 < ry)%R ->
  (ellipse_level rx ry t x y - ellipse_level rx ry t u v <= ellipse_level rx ry t (x + u) (y + v))%R.
Proof.
  intros Hx Hy. pose proof (level_triangle rx ry t (x + u) (y + v) (- u) (- v) Hx Hy) as H. rewrite level_opp in H by auto.
  replace (x + u + - u)%R with x in H by ring. replace (y + v + - v)%R with y in H by ring. lra.
Qed.
(** A quadratic form on a square is largest at a corner. *)
Lemma qf_corner a b c w s t : (0 <= a -> 0 <= c -> Rabs s <= w -> Rabs t <= w ->
  a * s ^ 2 + b * (s * t) + c * t ^ 2 <= w ^ 2 * (a + Rabs b + c))%R.
Proof.
  intros Ha Hc Hs Ht.
  assert (s ^ 2 <= w ^ 2)%R by (rewrite <- (pow2_abs s); apply pow_incr; split; [apply Rabs_pos|auto]).
  assert (t ^ 2 <= w ^ 2)%R by (rewrite <- (pow2_abs t); apply pow_incr; split; [apply Rabs_pos|auto]).
  assert (b * (s * t) <= Rabs b * w ^ 2)%R.
  { eapply Rle_trans; [apply Rle_abs|]. rewrite !Rabs_mult. apply Rmult_le_compat_l; [apply Rabs_pos|].
    pose proof (Rabs_pos s). pose proof (Rabs_pos t). nra. }
  nra.
Qed.
Lemma level_corner rx ry t w u v : (0 < rx)%R -> (0 < ry)%R -> (Rabs u <= w)%R -> (Rabs v <= w)%R ->
  (ellipse_level rx ry t u v <= w * Rmax (ellipse_level rx ry t 1 1) (ellipse_level rx ry t 1 (-1)))%R.
Proof.
  intros Hx Hy Hu Hv. assert (Hw : (0 <= w)%R) by (pose proof (Rabs_pos u); lra).
  set (a := ((cos t / rx) ^ 2 + (sin t / ry) ^ 2)%R).
  set (c := ((sin t / rx) ^ 2 + (cos t / ry) ^ 2)%R).
  set (b := (2 * (cos t * sin t) * (/ rx ^ 2 - / ry ^ 2))%R).
  assert (Q : forall x y, (4 * ellipse_level rx ry t x y ^ 2 = a * x ^ 2 + b * (x * y) + c * y ^ 2)%R).
  { intros x y. rewrite level_nrm, Rpow_mult_distr, nrm_sq. unfold a, b, c. field. lra. }
  assert (Ha : (0 <= a)%R) by (unfold a; pose proof (pow2_ge_0 (cos t / rx)); pose proof (pow2_ge_0 (sin t / ry)); lra).
  assert (Hc : (0 <= c)%R) by (unfold c; pose proof (pow2_ge_0 (sin t / rx)); pose proof (pow2_ge_0 (cos t / ry)); lra).
  pose proof (qf_corner a b c w u v Ha Hc Hu Hv) as K. rewrite <- Q in K.
  pose proof (Q 1%R 1%R) as Q1. pose proof (Q 1%R (-1)%R) as Q2.
  pose proof (Rmax_l (ellipse_level rx ry t 1 1) (ellipse_level rx ry t 1 (-1))) as M1.
  pose proof (Rmax_r (ellipse_level rx ry t 1 1) (ellipse_level rx ry t 1 (-1))) as M2.
  set (M := Rmax _ _) in *. pose proof (level_nonneg rx ry t 1 1). pose proof (level_nonneg rx ry t 1 (-1)).
  assert (P : (0 <= M)%R) by lra.
  assert (B : (a + Rabs b + c <= 4 * M ^ 2)%R).
  { unfold Rabs. destruct (Rcase_abs b).
    - assert (ellipse_level rx ry t 1 (-1) ^ 2 <= M ^ 2)%R by (apply pow_incr; lra). lra.
    - assert (ellipse_level rx ry t 1 1 ^ 2 <= M ^ 2)%R by (apply pow_incr; lra). lra. }
  apply le_of_sq; [apply Rmult_le_pos; auto|]. rewrite Rpow_mult_distr.
  pose proof (pow2_ge_0 w). nra.
Qed.
Lemma ellipse_run nx ny rx ry rot xo yo ns isDark : valid_ellipse nx ny rx ry ns ->
  exists m, ellipse nx ny rx ry rot xo yo ns isDark = Ok m /\ nr m = ny /\ nc m = nx /\
  forall i j, 0 <= i < ny -> 0 <= j < nx ->
   let rho := ellipse_level rx ry (deg rot) in let h := corner_window nx ny rx ry (deg rot) xo yo in
   let v := edge_mask (fun x y => Rltb (rho x y) (/ 2 - h)) (fun x y => Rltb (/ 2 + h) (rho x y)) (fun x y => Rleb (rho x y) (/ 2)) ns
       (px nx xo j) (px ny yo i) in
    at2 m i j = if isDark then (1 - v)%R else v.
Proof.
  intros (Hnx & Hny & Hrx & Hry & Hns). unfold ellipse.
  rewrite (proj2 (Z.ltb_lt 0 nx)), (proj2 (Z.ltb_lt 0 ny)), (proj2 (Z.ltb_lt 0 ns)) by lia.
  rewrite (proj2 (Rltb_iff 0 rx)), (proj2 (Rltb_iff 0 ry)) by auto. cbn [guard bind]. rewrite pixel_dx_ok by auto. cbn [bind].
  rewrite (proj2 (Z.ltb_lt 1 ny)) by lia. cbn [guard bind].
  eexists. split; [reflexivity|]. split; [apply dark_shape|split; [apply dark_shape|]].
  intros i j Hi Hj. set (rho := ellipse_level rx ry (deg rot)). set (h := corner_window nx ny rx ry (deg rot) xo yo). rewrite at2_dark. cbn [at2].
  assert (D : (PI / 180 * rot)%R = deg rot) by (unfold deg; field).
  assert (E : forall x y, ellipse_rho rx ry (PI / 180 * rot) x y = rho x y) by (intros; rewrite D; apply ellipse_rho_level; auto).
  assert (A : forall x y, Rabs (rho x y) = rho x y) by (intros; apply Rabs_right, Rle_ge, level_nonneg).
  rewrite !axis_px by lia. unfold edge_mask, gray. rewrite !E, !A.
  assert (H : Rmax (Rabs (rho (px nx xo 0) (px ny yo 1) - rho (px nx xo 0) (px ny yo 0)))
               (Rabs (rho (px nx xo 1) (px ny yo 0) - rho (px nx xo 0) (px ny yo 0))) = h) by reflexivity.
  rewrite H.
  rewrite (rsum2_ext (fun p q => if Rleb (ellipse_rho rx ry (PI / 180 * rot) (xUp ns q + px nx xo j) (xUp ns p + px ny yo i)) (/ 2) then 1%R else 0%R)
    (fun p q => if Rleb (rho (xUp ns q + px nx xo j) (xUp ns p + px ny yo i))%R (/ 2) then 1%R else 0%R)) by (intros; rewrite E; reflexivity).
  reflexivity.
Qed.
Lemma ellipse_ok nx ny rx ry rot xo yo ns isDark : valid_ellipse nx ny rx ry ns ->
  ((1 - / IZR ns) / 2 * Rmax (ellipse_level rx ry (deg rot) 1 1) (ellipse_level rx ry (deg rot) 1 (-1))
     <= corner_window nx ny rx ry (deg rot) xo yo)%R ->
  exists m, ellipse nx ny rx ry rot xo yo ns isDark = Ok m /\ nr m = ny /\ nc m = nx /\
  forall i j, 0 <= i < ny -> 0 <= j < nx ->
    exists v, coverage (ellipse_set rx ry (deg rot)) ns (px nx xo j) (px ny yo i) v /\ at2 m i j = if isDark then (1 - v)%R else v.
Proof.
  intros V W. destruct (ellipse_run nx ny rx ry rot xo yo ns isDark V) as (m & E & R & C & P).
  exists m. split; [auto|split; [auto|split; [auto|]]]. intros i j Hi Hj. specialize (P i j Hi Hj). cbv zeta in P.
  destruct V as (Hnx & Hny & Hrx & Hry & Hns).
  eexists. split; [|exact P]. apply edge_mask_coverage_sub; auto.
  - intros u v. rewrite Rleb_iff. apply level_set.
  - intros Z0 s t Hs Ht D. apply Rltb_iff in Z0. apply level_set in D.
    pose proof (level_corner rx ry (deg rot) _ s t Hrx Hry Hs Ht).
    pose proof (level_reverse rx ry (deg rot) (px nx xo j) (px ny yo i) s t Hrx Hry). lra.
  - intros Z0 s t Hs Ht. apply Rltb_iff in Z0. apply level_set.
    pose proof (level_corner rx ry (deg rot) _ s t Hrx Hry Hs Ht).
    pose proof (level_triangle rx ry (deg rot) (px nx xo j) (px ny yo i) s t Hrx Hry). lra.
Qed.
Lemma ellipse_inv nx ny rx ry rot xo yo ns isDark m : ellipse nx ny rx ry rot xo yo ns isDark = Ok m ->
  valid_ellipse nx ny rx ry ns.
Proof.
  intros E. unfold ellipse in E.
  apply guard_ok in E as [G1 E]. apply guard_ok in E as [G2 E]. apply guard_ok in E as [G3 E]. apply guard_ok in E as [G4 E].
  apply guard_ok in E as [G5 E].
  apply Z.ltb_lt in G1, G2, G5. apply Rltb_iff in G3, G4.
  destruct (Z_le_gt_dec nx 1) as [L|L]; [rewrite pixel_dx_err in E by auto; discriminate|].
  rewrite pixel_dx_ok in E by lia. cbn [bind] in E. apply guard_ok in E as [G6 E]. apply Z.ltb_lt in G6.
  repeat split; auto; lia.
Qed.
Lemma ellipse_range nx ny rx ry rot xo yo ns isDark m : ellipse nx ny rx ry rot xo yo ns isDark = Ok m ->
  nr m = ny /\ nc m = nx /\ forall i j, in_arr m i j -> (0 <= at2 m i j <= 1)%R.
Proof.
  intros E. pose proof (ellipse_inv _ _ _ _ _ _ _ _ _ _ E) as V.
  destruct (ellipse_run nx ny rx ry rot xo yo ns isDark V) as (m' & E' & R & C & P). rewrite E in E'. injection E' as <-.
  split; [auto|split; [auto|]]. intros i j [Hi Hj]. rewrite R in Hi. rewrite C in Hj. specialize (P i j Hi Hj). cbv zeta in P.
  rewrite P. destruct V as (_ & _ & _ & _ & Hns).
  match goal with |- context [edge_mask ?a ?b ?c ?d ?x ?y] => pose proof (edge_mask_range a b c d x y Hns) as K end.
  destruct isDark; lra.
Qed.
(** Counterexample: 4x4 array, offsets -1.5: the two corner differences vanish, so no pixel is antialiased. *)
Lemma ellipse_bad : exists m, ellipse 4 4 (17/10) (17/10) 0 (-3/2) (-3/2) 2 false = Ok m /\ at2 m 1 2 = 1%R.
Proof.
  destruct (ellipse_run 4 4 (17/10) (17/10) 0 (-3/2) (-3/2) 2 false) as (m & E & R & C & P).
  { repeat split; lia || lra. }
  exists m. split; auto. rewrite (P 1 2) by lia. cbv zeta.
  assert (D : deg 0 = 0%R) by (unfold deg; field). rewrite D.
  assert (L : forall x y, ellipse_level (17/10) (17/10) 0 x y = (/ 2 * sqrt ((x ^ 2 + y ^ 2) / (17/10)^2))%R).
  { intros x y. unfold ellipse_level. rewrite cos_0, sin_0. f_equal. f_equal. field. }
  assert (H : corner_window 4 4 (17/10) (17/10) 0 (-3/2) (-3/2) = 0%R).
  { unfold corner_window. rewrite !L. unfold px. cbn.
    replace ((1 - 2 - -3 / 2) * ((1 - 2 - -3 / 2) * 1))%R with ((0 - 2 - -3 / 2) * ((0 - 2 - -3 / 2) * 1))%R by field.
    replace (-2 - -3 / 2)%R with (0 - 2 - -3 / 2)%R by field. replace (-1 - -3 / 2)%R with (- (0 - 2 - -3 / 2))%R by field.
    match goal with |- Rmax (Rabs ?a) (Rabs ?b) = _ => assert (Z1 : a = 0%R); [|assert (Z2 : b = 0%R); [|rewrite Z1, Z2, Rabs_R0; unfold Rmax; destruct (Rle_dec 0 0); auto]] end;
    match goal with |- (/ 2 * sqrt ?u - / 2 * sqrt ?v)%R = _ => replace u with v by field; ring end. }
  rewrite H. unfold edge_mask. rewrite L. unfold px.
  assert (S : (sqrt ((IZR (2 - 4 / 2) - -3 / 2) ^ 2 + (IZR (1 - 4 / 2) - -3 / 2) ^ 2 / (17 / 10) ^ 2) < 1)%R -> True) by auto. clear S.
  set (q := (((IZR (2 - 4 / 2) - -3 / 2) ^ 2 + (IZR (1 - 4 / 2) - -3 / 2) ^ 2) / (17 / 10) ^ 2)%R).
  assert (Q : (0 <= q < 1)%R).
  { unfold q. change (2 - 4 / 2) with 0. change (1 - 4 / 2) with (-1). split; lra. }
  assert (S : (sqrt q < 1)%R) by (rewrite <- sqrt_1; apply sqrt_lt_1_alt; auto).
  rewrite (proj2 (Rltb_false _ _)) by lra. rewrite (proj2 (Rltb_iff _ _)) by lra. reflexivity.
Qed.

(** ** rectangle *)
Lemma rect_u_lin t x y : rect_u t x y = (x * cos t + y * sin t)%R.
Proof.
  unfold rect_u. rewrite cos_minus. replace (x ^ 2 + y ^ 2)%R with (x * x + y * y)%R by ring.
  pose proof (polar_cos x y) as C. pose proof (polar_sin x y) as S. set (r := sqrt _) in *.
  rewrite Rmult_plus_distr_l, <- !Rmult_assoc, C, S. reflexivity.
Qed.
Lemma rect_v_lin t x y : rect_v t x y = (y * cos t - x * sin t)%R.
Proof.
  unfold rect_v. rewrite sin_minus. replace (x ^ 2 + y ^ 2)%R with (x * x + y * y)%R by ring.
  pose proof (polar_cos x y) as C. pose proof (polar_sin x y) as S. set (r := sqrt _) in *.
  rewrite Rmult_minus_distr_l, <- !Rmult_assoc, C, S. reflexivity.
Qed.
Lemma dir_bound t s u : (- / 2 < s < / 2)%R -> (- / 2 < u < / 2)%R ->
  (Rabs (s * cos t + u * sin t) < sqrt 2 /\ Rabs (u * cos t - s * sin t) < sqrt 2)%R.
Proof.
  intros Hs Hu. pose proof (nrm_sub s u Hs Hu) as N. pose proof (nrm_nonneg s u) as P. pose proof (nrm_sq s u) as Q.
  pose proof (sin2_cos2 t) as SC. unfold Rsqr in SC.
  split; (eapply Rle_lt_trans; [|exact N]); apply le_of_sq; auto; rewrite pow2_abs, Q.
  - pose proof (pow2_ge_0 (s * sin t - u * cos t)). nra.
  - pose proof (pow2_ge_0 (s * cos t + u * sin t)). nra.
Qed.
Lemma rectangle_ok nx ny w h xo yo rot ns isDark : valid_rect nx ny w h ns ->
  exists m, rectangle nx ny w h xo yo rot ns isDark = Ok m /\ nr m = ny /\ nc m = nx /\
  forall i j, 0 <= i < ny -> 0 <= j < nx ->
    exists v, coverage (rect_set w h (deg rot)) ns (px nx xo j) (px ny yo i) v /\ at2 m i j = if isDark then (1 - v)%R else v.
Proof.
  intros (Hnx & Hny & Hw & Hh & Hns). unfold rectangle.
  rewrite (proj2 (Z.ltb_lt 0 nx)), (proj2 (Z.ltb_lt 0 ny)), (proj2 (Z.ltb_lt 0 ns)) by lia.
  rewrite (proj2 (Rltb_iff 0 w)), (proj2 (Rltb_iff 0 h)) by auto. cbn [guard bind]. rewrite pixel_dx_ok by auto. cbn [bind].
  eexists. split; [reflexivity|]. split; [apply dark_shape|split; [apply dark_shape|]].
  intros i j Hi Hj. rewrite at2_dark. cbn [at2]. rewrite !axis_px by lia. fold (deg rot).
  eexists. split; [|reflexivity]. apply edge_mask_coverage; auto.
  - intros u v. rewrite !andb_true_iff, !Rleb_iff, rect_u_lin, rect_v_lin. unfold rect_set. split.
    + intros [[[A B] C] D]. split; apply Rabs_le; lra.
    + intros [A B]. 
      assert (A' := Rle_abs (u * cos (deg rot) + v * sin (deg rot))). assert (A'' := Rle_abs (- (u * cos (deg rot) + v * sin (deg rot)))).
      assert (B' := Rle_abs (v * cos (deg rot) - u * sin (deg rot))). assert (B'' := Rle_abs (- (v * cos (deg rot) - u * sin (deg rot)))).
      rewrite Rabs_Ropp in A'', B''. repeat split; lra.
  - intros Z0 s t Hs Ht [D1 D2]. rewrite !orb_true_iff, !Rleb_iff, rect_u_lin, rect_v_lin in Z0.
    destruct (dir_bound (deg rot) s t Hs Ht) as [B1 B2]. apply Rabs_def2 in B1, B2.
    set (X := px nx xo j) in *. set (Y := px ny yo i) in *. set (c := cos (deg rot)) in *. set (z := sin (deg rot)) in *.
    pose proof (Rle_abs ((X + s) * c + (Y + t) * z)) as A1. pose proof (Rle_abs (- ((X + s) * c + (Y + t) * z))) as A2.
    pose proof (Rle_abs ((Y + t) * c - (X + s) * z)) as A3. pose proof (Rle_abs (- ((Y + t) * c - (X + s) * z))) as A4.
    rewrite Rabs_Ropp in A2, A4. destruct Z0 as [[[Z0|Z0]|Z0]|Z0]; lra.
  - intros Z0 s t Hs Ht. rewrite !andb_true_iff, !Rleb_iff, rect_u_lin, rect_v_lin in Z0.
    destruct (dir_bound (deg rot) s t Hs Ht) as [B1 B2]. apply Rabs_def2 in B1, B2.
    set (X := px nx xo j) in *. set (Y := px ny yo i) in *. unfold rect_set. set (c := cos (deg rot)) in *. set (z := sin (deg rot)) in *.
    split; apply Rabs_le; lra.
Qed.
Lemma rectangle_inv nx ny w h xo yo rot ns isDark m : rectangle nx ny w h xo yo rot ns isDark = Ok m ->
  valid_rect nx ny w h ns.
Proof.
  intros E. unfold rectangle in E.
  apply guard_ok in E as [G1 E]. apply guard_ok in E as [G2 E]. apply guard_ok in E as [G3 E]. apply guard_ok in E as [G4 E].
  apply guard_ok in E as [G5 E].
  apply Z.ltb_lt in G1, G2, G5. apply Rltb_iff in G3, G4.
  destruct (Z_le_gt_dec nx 1) as [L|L]; [rewrite pixel_dx_err in E by auto; discriminate|].
  repeat split; auto; lia.
Qed.
Lemma rectangle_err nx ny w h xo yo rot ns isDark e : rectangle nx ny w h xo yo rot ns isDark = Err e ->
  (e = TypeError /\ (nx <= 0 \/ ny <= 0 \/ (w <= 0)%R \/ (h <= 0)%R \/ ns <= 0)) \/ (e = IndexError /\ nx = 1).
Proof.
  intros E. unfold rectangle in E.
  apply guard_err in E as [[G ->]|[G1 E]]; [apply Z.ltb_ge in G; auto 12|].
  apply guard_err in E as [[G ->]|[G2 E]]; [apply Z.ltb_ge in G; auto 12|].
  apply guard_err in E as [[G ->]|[G3 E]]; [apply Rltb_false in G; auto 12|].
  apply guard_err in E as [[G ->]|[G4 E]]; [apply Rltb_false in G; auto 12|].
  apply guard_err in E as [[G ->]|[G5 E]]; [apply Z.ltb_ge in G; auto 12|]. apply Z.ltb_lt in G1.
  destruct (Z_le_gt_dec nx 1) as [L|L]; [rewrite pixel_dx_err in E by auto; injection E as <-; right; split; [auto|lia]|].
  rewrite pixel_dx_ok in E by lia. discriminate.
Qed.

(** ** Angles *)
Lemma wrap_range t : (- PI < wrap_angle t <= PI)%R.
Proof. apply arctan2_range. Qed.
Lemma wrap_cs t : cos (wrap_angle t) = cos t /\ sin (wrap_angle t) = sin t.
Proof.
  unfold wrap_angle. pose proof (polar_cos (cos t) (sin t)) as C. pose proof (polar_sin (cos t) (sin t)) as S.
  assert (E : (cos t * cos t + sin t * sin t = 1)%R) by (pose proof (sin2_cos2 t) as H; unfold Rsqr in H; lra).
  rewrite E, sqrt_1, Rmult_1_l in C, S. auto.
Qed.
Lemma wrap_eq s t : cos s = cos t -> sin s = sin t -> wrap_angle s = wrap_angle t.
Proof. intros C S. unfold wrap_angle. rewrite C, S. reflexivity. Qed.
Lemma wrap_id t : (- PI < t <= PI)%R -> wrap_angle t = t.
Proof. intros H. destruct (wrap_cs t) as [C S]. apply sin_cos_inj; auto using wrap_range. Qed.
Lemma wrap_abs t : (Rabs (wrap_angle t) <= Rabs t)%R.
Proof.
  pose proof (wrap_range t) as W. pose proof PI_RGT_0 as P.
  assert (B : (Rabs (wrap_angle t) <= PI)%R) by (apply Rabs_le; lra).
  destruct (Rlt_or_le PI (Rabs t)) as [L|L]; [lra|].
  destruct (Req_dec t (- PI)) as [->|N].
  - rewrite (Rabs_left (- PI)) by lra. lra.
  - rewrite wrap_id; [lra|]. apply Rcomplements.Rabs_le_between in L. lra.
Qed.
Lemma wrap_le s t : cos s = cos t -> sin s = sin t -> (Rabs (wrap_angle s) <= Rabs t)%R.
Proof. intros C S. rewrite (wrap_eq s t) by auto. apply wrap_abs. Qed.
Lemma wrap_triangle s t : (Rabs (wrap_angle (s + t)) <= Rabs (wrap_angle s) + Rabs (wrap_angle t))%R.
Proof.
  eapply Rle_trans; [apply (wrap_le _ (wrap_angle s + wrap_angle t))|apply Rabs_triang];
    destruct (wrap_cs s), (wrap_cs t); rewrite ?cos_plus, ?sin_plus; congruence.
Qed.
Lemma wrap_opp t : Rabs (wrap_angle (- t)) = Rabs (wrap_angle t).
Proof.
  assert (K : forall u, (Rabs (wrap_angle (- u)) <= Rabs (wrap_angle u))%R).
  { intros u. destruct (wrap_cs u) as [C S]. rewrite <- (Rabs_Ropp (wrap_angle u)).
    apply wrap_le; rewrite ?cos_neg, ?sin_neg; congruence. }
  apply Rle_antisym; auto. rewrite <- (Ropp_involutive t) at 1. apply K.
Qed.
Lemma abs_on a t : (Rleb t a && Rleb (- a) t = true)%R <-> (Rabs t <= a)%R.
Proof. rewrite andb_true_iff, !Rleb_iff, Rcomplements.Rabs_le_between. lra. Qed.
Lemma nrm_polar x y : (x = nrm x y * cos (arctan2 y x) /\ y = nrm x y * sin (arctan2 y x))%R.
Proof. rewrite <- nrm_alt, polar_cos, polar_sin. auto. Qed.
Lemma arctan2_polar r t : (0 < r)%R -> cos (arctan2 (r * sin t) (r * cos t)) = cos t /\ sin (arctan2 (r * sin t) (r * cos t)) = sin t.
Proof.
  intros Hr. pose proof (polar_cos (r * cos t) (r * sin t)) as C. pose proof (polar_sin (r * cos t) (r * sin t)) as S.
  assert (E : (r * cos t * (r * cos t) + r * sin t * (r * sin t) = r * r)%R)
    by (pose proof (sin2_cos2 t) as H; unfold Rsqr in H; nra).
  rewrite E, sqrt_square in C, S by lra. split; eapply Rmult_eq_reg_l; eauto; lra.
Qed.
Lemma wedge_iff t a x y : (Rabs (wrap_angle (arctan2 y x - t)) <= a)%R <-> in_wedge t a x y.
Proof.
  split.
  - intros H. exists (nrm x y), (wrap_angle (arctan2 y x - t)).
    destruct (wrap_cs (arctan2 y x - t)) as [C S]. destruct (nrm_polar x y) as [X Y].
    assert (C' : cos (t + wrap_angle (arctan2 y x - t)) = cos (arctan2 y x)).
    { rewrite cos_plus, C, S. rewrite <- cos_plus. f_equal. ring. }
    assert (S' : sin (t + wrap_angle (arctan2 y x - t)) = sin (arctan2 y x)).
    { rewrite sin_plus, C, S. rewrite <- sin_plus. f_equal. ring. }
    rewrite C', S'. split; [apply nrm_nonneg|]. split; [auto|]. split; [auto|]. split.
    + apply Rcomplements.Rabs_le_between in H. lra.
    + intros Z0. rewrite Z0 in X, Y. rewrite Rmult_0_l in X, Y. rewrite X, Y.
      unfold arctan2. destruct (Rlt_dec 0 0); [lra|]. rewrite ?Rabs_R0. repeat destruct (Rle_dec _ _); repeat destruct (Rlt_dec _ _); try lra; apply cos_0.
  - intros (r & s & Hr & X & Y & Hs & H0). assert (A : (Rabs s <= a)%R) by (apply Rabs_le; lra).
    eapply Rle_trans; [|exact A]. destruct Hr as [Hr|Hr].
    + subst x y. destruct (arctan2_polar r (t + s) Hr) as [C S].
      apply wrap_le.
      * rewrite cos_minus, C, S, <- cos_minus. f_equal. ring.
      * rewrite sin_minus, C, S, <- sin_minus. f_equal. ring.
    + specialize (H0 (eq_sym Hr)). subst r. rewrite Rmult_0_l in X, Y. subst x y.
      assert (S0 : sin (t + s) = 0%R).
      { pose proof (sin2_cos2 (t + s)) as Q. unfold Rsqr in Q. rewrite H0 in Q. nra. }
      assert (A0 : arctan2 0 0 = 0%R).
      { unfold arctan2. repeat destruct (Rlt_dec _ _); try lra. }
      rewrite A0. apply wrap_le.
      * replace (0 - t)%R with (- t)%R by ring. rewrite cos_neg. rewrite cos_plus in H0. rewrite sin_plus in S0.
        pose proof (sin2_cos2 t) as Q. unfold Rsqr in Q.
        replace (cos s) with (cos t * (cos t * cos s - sin t * sin s) + sin t * (sin t * cos s + cos t * sin s))%R by (transitivity (cos s * (sin t * sin t + cos t * cos t))%R; [ring|rewrite Q; ring]).
        rewrite H0, S0. ring.
      * replace (0 - t)%R with (- t)%R by ring. rewrite sin_neg. rewrite cos_plus in H0. rewrite sin_plus in S0.
        pose proof (sin2_cos2 t) as Q. unfold Rsqr in Q.
        replace (sin s) with (cos t * (sin t * cos s + cos t * sin s) - sin t * (cos t * cos s - sin t * sin s))%R by (transitivity (sin s * (sin t * sin t + cos t * cos t))%R; [ring|rewrite Q; ring]).
        rewrite H0, S0. ring.
Qed.
(** Moving a point by less than rho * sin d turns it by at most d. *)
Lemma angle_lip x y u v d : (0 <= d <= PI / 2)%R -> (u ^ 2 + v ^ 2 < (x ^ 2 + y ^ 2) * sin d ^ 2)%R ->
  (Rabs (wrap_angle (arctan2 (y + v) (x + u) - arctan2 y x)) <= d)%R.
Proof.
  intros Hd L. set (t := arctan2 y x). set (t' := arctan2 (y + v) (x + u)).
  destruct (nrm_polar x y) as [X Y]. destruct (nrm_polar (x + u) (y + v)) as [X' Y']. fold t in X, Y. fold t' in X', Y'.
  set (r := nrm x y) in *. set (r' := nrm (x + u) (y + v)) in *.
  pose proof (nrm_nonneg x y) as Hr. pose proof (nrm_nonneg (x + u) (y + v)) as Hr'. fold r in Hr. fold r' in Hr'.
  set (w := wrap_angle (t' - t)). destruct (wrap_cs (t' - t)) as [C S]. fold w in C, S.
  pose proof (sin2_cos2 w) as Q. unfold Rsqr in Q. pose proof (sin2_cos2 d) as Qd. unfold Rsqr in Qd.
  assert (Law : (u ^ 2 + v ^ 2 = (r' - r * cos w) ^ 2 + (r * sin w) ^ 2)%R).
  { assert (U : (u = r' * cos t' - r * cos t)%R) by lra. assert (V : (v = r' * sin t' - r * sin t)%R) by lra.
    rewrite U, V, C, S, cos_minus, sin_minus.
    pose proof (sin2_cos2 t) as Q1. pose proof (sin2_cos2 t') as Q2. unfold Rsqr in Q1, Q2.
    replace ((r' * cos t' - r * cos t) ^ 2 + (r' * sin t' - r * sin t) ^ 2)%R with
      (r' ^ 2 * (sin t' * sin t' + cos t' * cos t') + r ^ 2 * (sin t * sin t + cos t * cos t) - 2 * r * r' * (cos t' * cos t + sin t' * sin t))%R by ring.
    replace ((r' - r * (cos t' * cos t + sin t' * sin t)) ^ 2 + (r * (sin t' * cos t - cos t' * sin t)) ^ 2)%R with
      (r' ^ 2 - 2 * r * r' * (cos t' * cos t + sin t' * sin t) + r ^ 2 * ((sin t' * sin t' + cos t' * cos t') * (sin t * sin t + cos t * cos t)))%R by ring.
    rewrite Q1, Q2. ring. }
  assert (R2 : (x ^ 2 + y ^ 2 = r ^ 2)%R) by (unfold r; rewrite nrm_sq; auto). rewrite R2, Law in L.
  assert (Rp : (0 < r ^ 2)%R).
  { destruct (Req_dec r 0) as [Z0|N]; [rewrite Z0 in L; pose proof (pow2_ge_0 (r' - 0 * cos w)); nra|]. nra. }
  assert (SS : (sin w ^ 2 < sin d ^ 2)%R).
  { pose proof (pow2_ge_0 (r' - r * cos w)). apply Rmult_lt_reg_l with (r ^ 2)%R; auto. nra. }
  assert (CP : (0 < cos w)%R).
  { destruct (Rlt_or_le 0 (cos w)) as [|N]; auto. exfalso.
    assert (sin d ^ 2 <= 1)%R by (pose proof (pow2_ge_0 (cos d)); nra).
    assert (K : (0 <= r' * (r * - cos w))%R) by (apply Rmult_le_pos; [|apply Rmult_le_pos]; lra).
    assert (r ^ 2 * cos w ^ 2 <= (r' - r * cos w) ^ 2)%R by (pose proof (pow2_ge_0 r'); nra).
    assert ((r' - r * cos w) ^ 2 + (r * sin w) ^ 2 >= r ^ 2 * (sin w * sin w + cos w * cos w))%R by nra.
    rewrite Q in H1. nra. }
  pose proof (wrap_range (t' - t)) as W. fold w in W.
  assert (WB : (- (PI / 2) < w < PI / 2)%R).
  { destruct (Rlt_or_le w (PI / 2)) as [L1|L1]; [destruct (Rlt_or_le (- (PI / 2)) w) as [L2|L2]; [lra|]|]; exfalso.
    - assert (cos (- w) <= 0)%R by (apply cos_le_0; lra). rewrite cos_neg in H. lra.
    - assert (cos w <= 0)%R by (apply cos_le_0; lra). lra. }
  assert (SD : (0 <= sin d)%R) by (apply sin_ge_0; lra).
  apply Rabs_le. split.
  - destruct (Rle_or_lt (- d) w) as [|N]; auto. exfalso.
    assert (sin w < sin (- d))%R by (apply sin_increasing_1; lra). rewrite sin_neg in H. nra.
  - destruct (Rle_or_lt w d) as [|N]; auto. exfalso.
    assert (sin d < sin w)%R by (apply sin_increasing_1; lra). nra.
Qed.

(** ** annular_segments *)
Lemma segments_run nSeg rIn rOut nx ny xo yo angOpen angRot ns dTheta :
  valid_segments nSeg rIn rOut nx ny angOpen angRot ns dTheta ->
  exists m, annular_segments nSeg rIn rOut nx ny xo yo angOpen angRot ns dTheta = Ok m /\ nr m = ny /\ nc m = nx /\
   (forall i j, in_arr m i j -> (0 <= at2 m i j <= 1)%R) /\
   ((0 < dTheta <= 90)%R -> forall i j, 0 <= i < ny -> 0 <= j < nx ->
     angularly_resolved rIn rOut (deg dTheta) (px nx xo j) (px ny yo i) ->
     coverage (segments_set nSeg rIn rOut (deg angOpen) (deg angRot)) ns (px nx xo j) (px ny yo i) (at2 m i j)).
Proof.
  intros (Hs & H1 & H2 & H3 & H4 & H5 & H6 & H7 & H8). unfold annular_segments.
  assert (B : ((nSeg =? 1) || (nSeg =? 2) = true)) by (destruct Hs as [-> | ->]; reflexivity). rewrite B.
  rewrite (proj2 (Rltb_iff 0 rIn)), (proj2 (Rltb_iff 0 rOut)), (proj2 (Rleb_iff 0 angOpen)), (proj2 (Rleb_iff 0 dTheta)),
    (proj2 (Rltb_iff angRot 360)) by auto.
  rewrite (proj2 (Z.ltb_lt 0 nx)), (proj2 (Z.ltb_lt 0 ny)), (proj2 (Z.ltb_lt 0 ns)) by lia. cbn [guard bind].
  rewrite pixel_dx_ok by auto. cbn [bind].
  eexists. split; [reflexivity|]. cbn [nr nc]. split; [reflexivity|]. split; [reflexivity|]. split.
  { intros i j _. cbn [at2]. apply edge_mask_range. auto. }
  intros Hd i j Hi Hj Hres. cbn [at2]. rewrite !axis_px by lia.
  fold (deg angOpen) (deg angRot) (deg dTheta).
  set (a := (deg angOpen / 2)%R). set (rot := deg angRot). set (d := deg dTheta) in *.
  set (X := px nx xo j) in *. set (Y := px ny yo i) in *.
  assert (Hd' : (0 <= d <= PI / 2)%R) by (unfold d, deg; pose proof PI_RGT_0; split; nra).
  assert (A1 : forall x y, (arctan2 y x - rot - PI = arctan2 y x - (rot + PI))%R) by (intros; ring).
  apply edge_mask_coverage; auto.
  - intros x y. rewrite !andb_true_iff, !Rleb_iff. fold (nrm x y). unfold segments_set, annulus_set. fold a.
    rewrite <- nrm_sq. pose proof (nrm_nonneg x y) as P.
    rewrite <- !wedge_iff.
    assert (RR : (nrm x y <= rOut /\ rIn <= nrm x y <-> rIn ^ 2 <= nrm x y ^ 2 <= rOut ^ 2)%R).
    { split; [intros []; split; nra|]. intros []. split; apply le_of_sq; auto; lra. }
    rewrite <- RR. destruct Hs as [-> | ->]; cbn [Z.eqb Pos.eqb]; rewrite ?orb_true_iff, !abs_on, ?A1; intuition lia.
  - intros Z0 s t Hs' Ht. pose proof (nrm_sub s t Hs' Ht) as NS.
    intros [[I1 I2] W]. fold a in W. rewrite <- nrm_sq in I1, I2. pose proof (nrm_nonneg (X + s) (Y + t)) as P.
    assert (J1 : (rIn <= nrm (X + s) (Y + t))%R) by (apply le_of_sq; auto).
    assert (J2 : (nrm (X + s) (Y + t) <= rOut)%R) by (apply le_of_sq; lra).
    pose proof (nrm_triangle X Y s t) as T1. pose proof (nrm_reverse X Y s t) as T2.
    rewrite nrm_alt in Z0. rewrite !orb_true_iff, !Rltb_iff in Z0. fold (nrm X Y) in Hres.
    destruct Z0 as [[Z0|Z0]|Z0]; [lra|lra|].
    destruct Hres as [Hres|[Hres|Hres]]; [|fold (nrm X Y) in Hres; lra|fold (nrm X Y) in Hres; lra].
    assert (Lip : (Rabs (wrap_angle (arctan2 (Y + t) (X + s) - arctan2 Y X)) <= d)%R) by (apply angle_lip; auto; nra).
    (* distances from any direction change by at most d *)
    assert (Dir : forall c, in_wedge c a (X + s) (Y + t) -> (Rabs (wrap_angle (arctan2 Y X - c)) <= a + d)%R).
    { intros c Hc. apply wedge_iff in Hc.
      replace (arctan2 Y X - c)%R with ((arctan2 (Y + t) (X + s) - c) + - (arctan2 (Y + t) (X + s) - arctan2 Y X))%R by ring.
      eapply Rle_trans; [apply wrap_triangle|]. rewrite wrap_opp. lra. }
    pose proof PI_RGT_0 as PP.
    assert (Opp : forall z, (a + d < wrap_angle z < PI - a - d)%R -> (a + d < Rabs (wrap_angle z) /\ a + d < Rabs (wrap_angle (z - PI)) /\ a + d < Rabs (wrap_angle (z + PI)))%R).
    { intros z Hz. assert (0 <= a + d)%R by (unfold a, deg; nra).
      assert (E1 : wrap_angle (z - PI) = (wrap_angle z - PI)%R).
      { destruct (wrap_cs z) as [c1 s1]. rewrite <- (wrap_id (wrap_angle z - PI)) by lra.
        apply wrap_eq; rewrite ?cos_minus, ?sin_minus; congruence. }
      assert (E2 : wrap_angle (z + PI) = wrap_angle (z - PI)).
      { apply wrap_eq; rewrite ?cos_plus, ?sin_plus, ?cos_minus, ?sin_minus, ?cos_PI, ?sin_PI; ring. }
      rewrite E2, E1. rewrite (Rabs_right (wrap_angle z)) by lra. rewrite (Rabs_left (wrap_angle z - PI)) by lra. lra. }
    destruct Hs as [-> | ->]; cbn [Z.eqb Pos.eqb] in Z0.
    + destruct W as [W|[W _]]; [|lia]. apply Dir in W. apply Rcomplements.Rabs_le_between in W.
      rewrite orb_true_iff, !Rltb_iff in Z0. lra.
    + rewrite orb_true_iff, !andb_true_iff, !Rltb_iff in Z0.
      destruct Z0 as [Z0|Z0]; apply Opp in Z0 as (K1 & K2 & K3).
      * destruct W as [W|[_ W]]; apply Dir in W; [lra|]. rewrite <- A1 in W. lra.
      * destruct W as [W|[_ W]]; apply Dir in W; [|rewrite <- A1 in W; lra].
        replace (arctan2 Y X - rot - PI + PI)%R with (arctan2 Y X - rot)%R in K3 by ring. lra.
  - intros Z0 s t Hs' Ht. pose proof (nrm_sub s t Hs' Ht) as NS.
    pose proof (nrm_triangle X Y s t) as T1. pose proof (nrm_reverse X Y s t) as T2.
    rewrite nrm_alt in Z0. rewrite !andb_true_iff, !Rltb_iff in Z0. destruct Z0 as [[Z1 Z2] Z0].
    destruct Hres as [Hres|[Hres|Hres]]; [|fold (nrm X Y) in Hres; lra|fold (nrm X Y) in Hres; pose proof (sqrt_lt_R0 2); lra].
    assert (Lip : (Rabs (wrap_angle (arctan2 (Y + t) (X + s) - arctan2 Y X)) <= d)%R) by (apply angle_lip; auto; nra).
    assert (Dir : forall c, (Rabs (wrap_angle (arctan2 Y X - c)) <= a - d)%R -> in_wedge c a (X + s) (Y + t)).
    { intros c Hc. apply wedge_iff.
      replace (arctan2 (Y + t) (X + s) - c)%R with ((arctan2 Y X - c) + (arctan2 (Y + t) (X + s) - arctan2 Y X))%R by ring.
      eapply Rle_trans; [apply wrap_triangle|]. lra. }
    split.
    + unfold annulus_set. rewrite <- nrm_sq. pose proof (nrm_nonneg (X + s) (Y + t)). split; nra.
    + fold a. destruct Hs as [-> | ->]; cbn [Z.eqb Pos.eqb] in Z0.
      * left. apply Dir. rewrite andb_true_iff, !Rltb_iff in Z0. apply Rabs_le. lra.
      * rewrite orb_true_iff, !andb_true_iff, !Rltb_iff in Z0. destruct Z0 as [Z0|Z0].
        -- left. apply Dir, Rabs_le. lra.
        -- right. split; auto. apply Dir. rewrite <- A1. apply Rabs_le. lra.
Qed.
Lemma segments_err nSeg rIn rOut nx ny xo yo angOpen angRot ns dTheta :
  (nSeg = 1 \/ nSeg = 2) -> (0 < rIn)%R -> (0 < rOut)%R -> 0 < ny -> (0 <= angOpen)%R -> 0 < ns -> (0 <= dTheta)%R ->
  (nx = 1 -> annular_segments nSeg rIn rOut nx ny xo yo angOpen angRot ns dTheta = Err IndexError) /\
  (1 < nx -> (360 <= angRot)%R -> annular_segments nSeg rIn rOut nx ny xo yo angOpen angRot ns dTheta = Err UnboundLocalError).
Proof.
  intros Hs H1 H2 H4 H5 H7 H8.
  assert (B : ((nSeg =? 1) || (nSeg =? 2) = true)) by (destruct Hs as [-> | ->]; reflexivity).
  split; [intros -> |intros Hn Hr]; unfold annular_segments; rewrite B;
  rewrite (proj2 (Rltb_iff 0 rIn)), (proj2 (Rltb_iff 0 rOut)), (proj2 (Rleb_iff 0 angOpen)), (proj2 (Rleb_iff 0 dTheta)) by auto;
  rewrite (proj2 (Z.ltb_lt 0 ny)), (proj2 (Z.ltb_lt 0 ns)) by lia.
  - cbn [guard bind Z.ltb Z.compare]. reflexivity.
  - rewrite (proj2 (Z.ltb_lt 0 nx)) by lia. cbn [guard bind]. rewrite pixel_dx_ok by auto. cbn [bind].
    rewrite (proj2 (Rltb_false angRot 360)) by auto. reflexivity.
Qed.

(** Near the centre the fixed angular padding is too small: the pixel at (2, 0) is set to 1 although subpixels
    of it lie outside the 12 degree wide wedge. *)
Lemma rsum2_lt f n c p q : 0 < n -> (forall i j, 0 <= i < n -> 0 <= j < n -> (f i j <= c)%R) -> 0 <= p < n -> 0 <= q < n ->
  (f p q < c)%R -> (rsum2 f n n < IZR n * IZR n * c)%R.
Proof.
  intros Hn H Hp Hq L. rewrite <- (rsum2_const c) by lia.
  assert (K : (f p q - c <= 0)%R) by lra.
  pose proof (rsum2_term_le (fun i j => c - f i j)%R n n p q) as T. cbv beta in T.
  assert (c - f p q <= rsum2 (fun i j => c - f i j) n n)%R by (apply T; auto; intros i j Hi Hj; specialize (H i j Hi Hj); lra).
  rewrite (rsum2_sub (fun _ _ => c) f) in H0. lra.
Qed.
Lemma coverage_lt_one (S : R -> R -> Prop) ns x y v p q : 0 < ns -> 0 <= p < ns -> 0 <= q < ns ->
  ~ S (x + sub ns q)%R (y + sub ns p)%R -> coverage S ns x y v -> (v < 1)%R.
Proof.
  intros Hn Hp Hq N (f & F & ->). assert (0 < IZR ns)%R by (apply IZR_lt; auto).
  assert (K : (rsum2 f ns ns < IZR ns * IZR ns * 1)%R).
  { apply (rsum2_lt f ns 1%R p q); auto.
    - intros i j Hi Hj. destruct (F i j Hi Hj) as [F1 F2].
      destruct (Classical_Prop.classic (S (x + sub ns j)%R (y + sub ns i)%R)); [rewrite F1|rewrite F2]; auto; lra.
    - destruct (F p q Hp Hq) as [F1 F2]. rewrite F2 by auto. lra. }
  apply Rmult_lt_reg_r with (IZR ns * IZR ns)%R; [nra|]. unfold Rdiv. rewrite Rmult_assoc, Rinv_l; nra.
Qed.
Lemma segments_bad : exists m, annular_segments 1 (1/10) 10 5 5 0 0 12 0 11 5 = Ok m /\ at2 m 2 4 = 1%R /\
  forall v, coverage (segments_set 1 (1/10) 10 (deg 12) (deg 0)) 11 (px 5 0 4) (px 5 0 2) v -> (v < 1)%R.
Proof.
  pose proof PI_RGT_0 as PP. pose proof PI_4 as P4.
  assert (X2 : px 5 0 4 = 2%R) by (unfold px; cbn; lra). assert (Y0 : px 5 0 2 = 0%R) by (unfold px; cbn; lra).
  assert (S2 : (sqrt 2 < 3/2)%R).
  { apply Rlt_le_trans with (sqrt (3/2 * (3/2))); [apply sqrt_lt_1_alt; lra|rewrite sqrt_square; lra]. }
  assert (SP : (0 < sqrt 2)%R) by (apply sqrt_lt_R0; lra).
  assert (N2 : sqrt (2 * 2 + 0 * 0) = 2%R) by (replace (2 * 2 + 0 * 0)%R with (2 * 2)%R by ring; apply sqrt_square; lra).
  assert (A0 : arctan2 0 2 = 0%R).
  { unfold arctan2. destruct (Rlt_dec 0 2); [|lra]. replace (0 / 2)%R with 0%R by field. apply atan_0. }
  eexists. split; [|split].
  - unfold annular_segments. rewrite (proj2 (Rltb_iff 0 (1/10))), (proj2 (Rltb_iff 0 10)), (proj2 (Rleb_iff 0 12)), (proj2 (Rleb_iff 0 5)),
      (proj2 (Rltb_iff 0 360)) by lra. cbn [guard bind Z.eqb Pos.eqb orb Z.ltb Z.compare]. rewrite pixel_dx_ok by lia. cbn [guard bind]. reflexivity.
  - cbn [at2]. rewrite !axis_px, X2, Y0 by lia. unfold edge_mask. rewrite N2, A0.
    replace (0 - 0 * PI / 180)%R with 0%R by field. rewrite (wrap_id 0) by lra.
    rewrite !(proj2 (Rltb_false _ _)) by lra. cbn [orb]. rewrite !(proj2 (Rltb_iff _ _)) by lra. reflexivity.
  - intros v C. apply (coverage_lt_one _ _ _ _ _ 10 5) in C; auto; try lia.
    rewrite X2, Y0. intros [_ [W|[W _]]]; [|lia].
    assert (E1 : (2 + sub 11 5 = 2)%R) by (unfold sub; lra). assert (E2 : (0 + sub 11 10 = 5/11)%R) by (unfold sub; lra).
    rewrite E1, E2 in W. destruct W as (r & s & Hr & Hx & Hy & Hs & _).
    unfold deg in *. replace (0 * PI / 180 + s)%R with s in * by field.
    (* |s| <= 6 degrees, so tan s <= 0.21 *)
    assert (B : (Rabs s <= 4/30)%R) by (apply Rabs_le; lra).
    assert (R1 : (0 < r)%R) by (destruct Hr as [|<-]; [auto|lra]).
    pose proof (sin2_cos2 s) as Q. unfold Rsqr in Q.
    assert (R2 : (r ^ 2 = 4 + 25/121)%R) by nra.
    assert (SB : (sin s <= 4/30)%R).
    { destruct (Rle_or_lt s 0) as [L|L].
      - assert (sin s <= 0)%R; [|lra]. pose proof (sin_ge_0 (- s)) as G. rewrite sin_neg in G. apply Rcomplements.Rabs_le_between in B. pose proof PI_4. 
        assert (0 <= - sin s)%R; [|lra]. apply G; [lra|]. pose proof PI2_1. lra.
      - pose proof (sin_lt_x s L). apply Rcomplements.Rabs_le_between in B. lra. }
    assert (r <= 2.1)%R by (apply le_of_sq; lra). nra.
Qed.

(** ** simple_pupil *)
Lemma strut_ok nx ny xo yo D width ns t : 1 < nx -> 0 < ny -> (0 < D)%R -> (0 < width)%R -> 0 < ns ->
  exists m, strut nx ny xo yo D width ns t = Ok m /\ nr m = ny /\ nc m = nx /\
  forall i j, 0 <= i < ny -> 0 <= j < nx -> exists w, strut_cover nx ny xo yo D width ns i j t w /\ at2 m i j = (1 - w)%R.
Proof.
  intros H1 H2 H3 H4 H5. unfold strut.
  destruct (rectangle_ok nx ny (6 / 10 * D) width (xo + cos (t * PI / 180) * (6 / 10 * D) / 2)
     (yo + sin (t * PI / 180) * (6 / 10 * D) / 2) t ns true) as (m & E & R & C & V); [repeat split; auto; lra|].
  exists m. split; [exact E|]. split; [auto|]. split; [auto|]. intros i j Hi Hj. destruct (V i j Hi Hj) as (w & W & Ew).
  exists w. split; [|auto]. unfold strut_cover.
  replace (xo + 3 / 10 * D * cos (deg t))%R with (xo + cos (t * PI / 180) * (6 / 10 * D) / 2)%R by (unfold deg; field).
  replace (yo + 3 / 10 * D * sin (deg t))%R with (yo + sin (t * PI / 180) * (6 / 10 * D) / 2)%R by (unfold deg; field). exact W.
Qed.
Lemma struts_ok nx ny xo yo D width ns angs : 1 < nx -> 0 < ny -> (0 < D)%R -> (0 < width)%R -> 0 < ns -> forall m0, nr m0 = ny -> nc m0 = nx ->
  exists m, struts nx ny xo yo D width ns angs m0 = Ok m /\ nr m = ny /\ nc m = nx /\
  forall i j, 0 <= i < ny -> 0 <= j < nx -> exists ws, Forall2 (strut_cover nx ny xo yo D width ns i j) angs ws /\
    at2 m i j = (at2 m0 i j * dim_all ws)%R.
Proof.
  intros H1 H2 H3 H4 H5. induction angs as [|t angs IH]; intros m0 R0 C0.
  - exists m0. cbn. split; [auto|]. split; [auto|]. split; [auto|]. intros i j _ _. exists []. split; [constructor|]. cbn. ring.
  - cbn [struts]. destruct (strut_ok nx ny xo yo D width ns t H1 H2 H3 H4 H5) as (s & E & R & C & V). rewrite E. cbn [bind].
    destruct (IH (amap2 Rmult m0 s)) as (m & Em & Rm & Cm & Vm); [cbn; auto|cbn; auto|].
    exists m. split; [auto|]. split; [auto|]. split; [auto|]. intros i j Hi Hj.
    destruct (V i j Hi Hj) as (w & W & Ew). destruct (Vm i j Hi Hj) as (ws & Ws & Ev). exists (w :: ws). split; [constructor; auto|].
    rewrite Ev. cbn [amap2 at2 dim_all]. rewrite Ew. ring.
Qed.
Lemma simple_pupil_ok nx ny xo yo dI dO angs width ns : valid_pupil nx ny dI dO width ns ->
  exists m, simple_pupil nx ny xo yo dI dO angs width ns = Ok m /\ nr m = ny /\ nc m = nx /\
  forall i j, 0 <= i < ny -> 0 <= j < nx -> exists vo vi ws,
    coverage (disc (dO / 2)) ns (px nx xo j) (px ny yo i) vo /\
    ((0 < dI)%R -> coverage (disc (dI / 2)) ns (px nx xo j) (px ny yo i) vi) /\ (dI = 0%R -> vi = 0%R) /\
    ((0 < width)%R -> Forall2 (strut_cover nx ny xo yo dO width ns i j) angs ws) /\ (width = 0%R -> ws = []) /\
    at2 m i j = (vo * (1 - vi) * dim_all ws)%R.
Proof.
  intros (H1 & H2 & [H3 H3'] & H4 & H5). unfold simple_pupil.
  rewrite (proj2 (Z.ltb_lt 0 nx)), (proj2 (Z.ltb_lt 0 ny)), (proj2 (Z.ltb_lt 0 ns)) by lia.
  rewrite (proj2 (Rleb_iff 0 dI)), (proj2 (Rleb_iff 0 width)), (proj2 (Rltb_iff 0 dO)), (proj2 (Rltb_iff dI dO)) by lra. cbn [guard bind].
  destruct (circle_ok nx ny (dO / 2) xo yo ns false) as (mo & Eo & Ro & Co & Vo); [repeat split; auto; lra|]. rewrite Eo. cbn [bind].
  assert (In : exists mi, (if Rltb 0 dI then do c <- circle nx ny (dI / 2) xo yo ns true; Ok (amap2 Rmult mo c) else Ok mo) = Ok mi /\
     nr mi = ny /\ nc mi = nx /\ forall i j, 0 <= i < ny -> 0 <= j < nx -> exists vi,
      ((0 < dI)%R -> coverage (disc (dI / 2)) ns (px nx xo j) (px ny yo i) vi) /\ (dI = 0%R -> vi = 0%R) /\ at2 mi i j = (at2 mo i j * (1 - vi))%R).
  { destruct (Rltb 0 dI) eqn:B.
    - apply Rltb_iff in B. destruct (circle_ok nx ny (dI / 2) xo yo ns true) as (mc & Ec & Rc & Cc & Vc); [repeat split; auto; lra|].
      rewrite Ec. cbn [bind]. eexists. split; [reflexivity|]. cbn [amap2 nr nc at2]. split; [auto|]. split; [auto|].
      intros i j Hi Hj. destruct (Vc i j Hi Hj) as (v & C & Ev). exists v. split; [auto|]. split; [lra|]. rewrite Ev. reflexivity.
    - apply Rltb_false in B. eexists. split; [reflexivity|]. split; [auto|]. split; [auto|]. intros i j Hi Hj. exists 0%R.
      split; [lra|]. split; [auto|]. ring. }
  destruct In as (mi & -> & Ri & Ci & Vi). cbn [bind].
  assert (St : exists m, (if (match angs with [] => false | _ => true end) && Rltb 0 width then struts nx ny xo yo dO width ns angs mi else Ok mi) = Ok m /\
     nr m = ny /\ nc m = nx /\ forall i j, 0 <= i < ny -> 0 <= j < nx -> exists ws,
      ((0 < width)%R -> Forall2 (strut_cover nx ny xo yo dO width ns i j) angs ws) /\ (width = 0%R -> ws = []) /\ at2 m i j = (at2 mi i j * dim_all ws)%R).
  { destruct (Rltb 0 width) eqn:B.
    - apply Rltb_iff in B. destruct (struts_ok nx ny xo yo dO width ns angs H1 H2) with (m0 := mi) as (m & E & R & C & V); auto; [lra|].
      exists m. split; [destruct angs; [exact E|exact E]|]. split; [auto|]. split; [auto|]. intros i j Hi Hj.
      destruct (V i j Hi Hj) as (ws & W & Ev). exists ws. split; [auto|]. split; [lra|auto].
    - apply Rltb_false in B. rewrite andb_false_r. exists mi. split; [auto|]. split; [auto|]. split; [auto|].
      intros i j _ _. exists []. split; [lra|]. split; [auto|]. cbn. ring. }
  destruct St as (m & -> & Rm & Cm & Vm). exists m. split; [auto|]. split; [auto|]. split; [auto|]. intros i j Hi Hj.
  destruct (Vo i j Hi Hj) as (vo & Cvo & Evo). destruct (Vi i j Hi Hj) as (vi & Cvi & Zvi & Evi).
  destruct (Vm i j Hi Hj) as (ws & Cws & Zws & Ews). exists vo, vi, ws. repeat (split; [auto|]). rewrite Ews, Evi, Evo. reflexivity.
Qed.
Lemma simple_pupil_inv nx ny xo yo dI dO angs width ns m : simple_pupil nx ny xo yo dI dO angs width ns = Ok m ->
  valid_pupil nx ny dI dO width ns.
Proof.
  intros E. unfold simple_pupil in E.
  apply guard_ok in E as [G1 E]. apply guard_ok in E as [G2 E]. apply guard_ok in E as [G3 E]. apply guard_ok in E as [G4 E].
  apply guard_ok in E as [G5 E]. apply guard_ok in E as [G6 E]. apply guard_ok in E as [G7 E].
  apply Z.ltb_lt in G1, G2, G6. apply Rleb_iff in G3, G5. apply Rltb_iff in G4, G7.
  destruct (circle nx ny (dO / 2) xo yo ns false) as [mo|e] eqn:C; [|discriminate].
  apply circle_range in C as (? & ? & ? & ?). repeat split; auto; lra.
Qed.
Lemma dim_all_range ws : Forall (fun w => (0 <= w <= 1)%R) ws -> (0 <= dim_all ws <= 1)%R.
Proof. induction 1; cbn; [lra|]. nra. Qed.
Lemma strut_cover_unique nx ny xo yo D width ns i j t w w' : strut_cover nx ny xo yo D width ns i j t w ->
  strut_cover nx ny xo yo D width ns i j t w' -> w = w'.
Proof. apply coverage_unique. Qed.
Lemma dim_all_perm l l' : Permutation l l' -> dim_all l = dim_all l'.
Proof. induction 1; cbn; nra || congruence. Qed.
Lemma Forall2_unique {A B} (P : A -> B -> Prop) l a b : (forall x u v, P x u -> P x v -> u = v) -> Forall2 P l a -> Forall2 P l b -> a = b.
Proof. intros U H. revert b. induction H; intros b K; inversion K; subst; auto. f_equal; eauto. Qed.
Lemma Forall2_perm {A B} (P : A -> B -> Prop) l l' ws : Permutation l l' -> Forall2 P l ws -> exists ws', Permutation ws ws' /\ Forall2 P l' ws'.
Proof.
  intros H. revert ws. induction H; intros ws K.
  - inversion K. exists []. auto.
  - inversion K; subst. destruct (IHPermutation l'0) as (w' & Pw & F); auto. exists (y :: w'). auto.
  - inversion K; subst. inversion H3; subst. exists (y1 :: y0 :: l'0). split; [constructor|]. auto.
  - destruct (IHPermutation1 ws) as (w1 & P1 & F1); auto. destruct (IHPermutation2 w1) as (w2 & P2 & F2); auto.
    exists w2. split; auto. eapply perm_trans; eauto.
Qed.
Lemma Forall2_range nx ny xo yo D width ns i j angs ws : 0 < ns -> Forall2 (strut_cover nx ny xo yo D width ns i j) angs ws ->
  Forall (fun w => (0 <= w <= 1)%R) ws.
Proof. intros Hn. induction 1; constructor; auto. eapply coverage_range; eauto. Qed.
Lemma simple_pupil_range nx ny xo yo dI dO angs width ns m : simple_pupil nx ny xo yo dI dO angs width ns = Ok m ->
  nr m = ny /\ nc m = nx /\ forall i j, in_arr m i j -> (0 <= at2 m i j <= 1)%R.
Proof.
  intros E. pose proof (simple_pupil_inv _ _ _ _ _ _ _ _ _ _ E) as V.
  destruct (simple_pupil_ok nx ny xo yo dI dO angs width ns V) as (m' & E' & R & C & P). rewrite E in E'. injection E' as <-.
  split; [auto|]. split; [auto|]. intros i j [Hi Hj]. rewrite R in Hi. rewrite C in Hj.
  destruct (P i j Hi Hj) as (vo & vi & ws & Co & Ci & Zi & Cw & Zw & ->). destruct V as (_ & _ & [D1 D2] & W & Hn).
  apply coverage_range in Co; auto.
  assert (0 <= vi <= 1)%R by (destruct D1 as [D1|D1]; [eapply coverage_range; eauto|rewrite Zi by auto; lra]).
  assert (0 <= dim_all ws <= 1)%R.
  { destruct W as [W|W]; [apply dim_all_range; eapply Forall2_range; eauto|rewrite Zw by auto; cbn; lra]. }
  assert (0 <= vo * (1 - vi) <= 1)%R by nra. nra.
Qed.
Lemma simple_pupil_perm nx ny xo yo dI dO angs angs' width ns m : Permutation angs angs' ->
  simple_pupil nx ny xo yo dI dO angs width ns = Ok m ->
  exists m', simple_pupil nx ny xo yo dI dO angs' width ns = Ok m' /\ aeq m' m.
Proof.
  intros HP E. pose proof (simple_pupil_inv _ _ _ _ _ _ _ _ _ _ E) as V.
  destruct (simple_pupil_ok nx ny xo yo dI dO angs width ns V) as (m0 & E' & R & C & P). rewrite E in E'. injection E' as <-.
  destruct (simple_pupil_ok nx ny xo yo dI dO angs' width ns V) as (m' & E' & R' & C' & P'). exists m'. split; auto.
  split; [congruence|split; [congruence|]]. intros i j [Hi Hj]. rewrite R' in Hi. rewrite C' in Hj.
  destruct (P i j Hi Hj) as (vo & vi & ws & Co & Ci & Zi & Cw & Zw & ->).
  destruct (P' i j Hi Hj) as (vo' & vi' & ws' & Co' & Ci' & Zi' & Cw' & Zw' & ->). destruct V as (_ & _ & [D1 D2] & W & Hn).
  rewrite (coverage_unique _ _ _ _ _ _ Co' Co).
  assert (vi' = vi) as -> by (destruct D1 as [D1|D1]; [eapply coverage_unique; eauto|rewrite Zi, Zi' by auto; auto]).
  f_equal. destruct W as [W|W]; [|rewrite Zw, Zw' by auto; auto].
  destruct (Forall2_perm _ _ _ _ HP (Cw W)) as (w2 & P2 & F2).
  rewrite (Forall2_unique _ _ _ _ (strut_cover_unique nx ny xo yo dO width ns i j) (Cw' W) F2). symmetry. apply dim_all_perm. auto.
Qed.
Lemma simple_pupil_more nx ny xo yo dI dO angs t width ns m m' :
  simple_pupil nx ny xo yo dI dO angs width ns = Ok m ->
  simple_pupil nx ny xo yo dI dO (t :: angs) width ns = Ok m' ->
  forall i j, in_arr m i j -> (at2 m' i j <= at2 m i j)%R.
Proof.
  intros E E1. pose proof (simple_pupil_inv _ _ _ _ _ _ _ _ _ _ E) as V.
  pose proof (simple_pupil_range _ _ _ _ _ _ _ _ _ _ E) as (_ & _ & Rg).
  destruct (simple_pupil_ok nx ny xo yo dI dO angs width ns V) as (m0 & E' & R & C & P). rewrite E in E'. injection E' as <-.
  destruct (simple_pupil_ok nx ny xo yo dI dO (t :: angs) width ns V) as (m0 & E' & R' & C' & P'). rewrite E1 in E'. injection E' as <-.
  intros i j Hij. specialize (Rg i j Hij). destruct Hij as [Hi Hj]. rewrite R in Hi. rewrite C in Hj.
  destruct (P i j Hi Hj) as (vo & vi & ws & Co & Ci & Zi & Cw & Zw & Em). rewrite Em in *.
  destruct (P' i j Hi Hj) as (vo' & vi' & ws' & Co' & Ci' & Zi' & Cw' & Zw' & ->). destruct V as (_ & _ & [D1 D2] & W & Hn).
  rewrite (coverage_unique _ _ _ _ _ _ Co' Co).
  assert (vi' = vi) as -> by (destruct D1 as [D1|D1]; [eapply coverage_unique; eauto|rewrite Zi, Zi' by auto; auto]).
  destruct W as [W|W]; [|rewrite Zw, Zw' by auto; lra].
  specialize (Cw W). specialize (Cw' W). inversion Cw' as [|? w ? ws1 Ct Cr Q1 Q2]. clear Q1. rewrite <- Q2 in *. clear Q2.
  rewrite (Forall2_unique _ _ _ _ (strut_cover_unique nx ny xo yo dO width ns i j) Cr Cw). cbn [dim_all].
  apply coverage_range in Ct; auto.
  replace (vo * (1 - vi) * ((1 - w) * dim_all ws))%R with ((1 - w) * (vo * (1 - vi) * dim_all ws))%R by ring.
  set (z := (vo * (1 - vi) * dim_all ws)%R) in *. nra.
Qed.
Lemma simple_pupil_err nx ny xo yo dI dO angs width ns :
  (nx <= 0 \/ ny <= 0 \/ (dI < 0)%R \/ (dO <= dI)%R \/ (width < 0)%R \/ ns <= 0 -> simple_pupil nx ny xo yo dI dO angs width ns = Err TypeError).
Proof.
  intros H. unfold simple_pupil.
  destruct (Z.ltb_spec 0 nx); [|reflexivity]. destruct (Z.ltb_spec 0 ny); [|reflexivity].
  destruct (Rleb 0 dI) eqn:B1; [|reflexivity]. apply Rleb_iff in B1. destruct (Rltb 0 dO) eqn:B2; [|reflexivity].
  destruct (Rleb 0 width) eqn:B3; [|reflexivity]. apply Rleb_iff in B3. destruct (Z.ltb_spec 0 ns); [|reflexivity].
  destruct (Rltb dI dO) eqn:B4; [|reflexivity]. apply Rltb_iff in B4. exfalso.
  destruct H as [H|[H|[H|[H|[H|H]]]]]; lia || lra.
Qed.
Lemma segments_range nSeg rIn rOut nx ny xo yo angOpen angRot ns dTheta :
  valid_segments nSeg rIn rOut nx ny angOpen angRot ns dTheta ->
  exists m, annular_segments nSeg rIn rOut nx ny xo yo angOpen angRot ns dTheta = Ok m /\ nr m = ny /\ nc m = nx /\
   forall i j, in_arr m i j -> (0 <= at2 m i j <= 1)%R.
Proof.
  intros V. destruct (segments_run nSeg rIn rOut nx ny xo yo angOpen angRot ns dTheta V) as (m & E & R & C & G & _). exists m. auto.
Qed.
Lemma segments_coverage nSeg rIn rOut nx ny xo yo angOpen angRot ns dTheta m :
  valid_segments nSeg rIn rOut nx ny angOpen angRot ns dTheta -> (0 < dTheta <= 90)%R ->
  annular_segments nSeg rIn rOut nx ny xo yo angOpen angRot ns dTheta = Ok m ->
  forall i j, 0 <= i < ny -> 0 <= j < nx ->
   angularly_resolved rIn rOut (deg dTheta) (px nx xo j) (px ny yo i) ->
   coverage (segments_set nSeg rIn rOut (deg angOpen) (deg angRot)) ns (px nx xo j) (px ny yo i) (at2 m i j).
Proof.
  intros V Hd E. destruct (segments_run nSeg rIn rOut nx ny xo yo angOpen angRot ns dTheta V) as (m' & E' & _ & _ & _ & G).
  rewrite E in E'. injection E' as <-. exact (G Hd).
Qed.
Lemma ellipse_ok_one nx ny rx ry rot xo yo isDark : valid_ellipse nx ny rx ry 1 ->
  exists m, ellipse nx ny rx ry rot xo yo 1 isDark = Ok m /\ nr m = ny /\ nc m = nx /\
  forall i j, 0 <= i < ny -> 0 <= j < nx ->
    exists v, coverage (ellipse_set rx ry (deg rot)) 1 (px nx xo j) (px ny yo i) v /\ at2 m i j = if isDark then (1 - v)%R else v.
Proof.
  intros V. apply ellipse_ok; auto. replace (1 - / 1)%R with 0%R by field. unfold Rdiv. rewrite !Rmult_0_l.
  unfold corner_window. eapply Rle_trans; [apply Rabs_pos|apply Rmax_l].
Qed.
Lemma ellipse_refuted : valid_ellipse 4 4 (17/10) (17/10) 2 /\
  exists m, ellipse 4 4 (17/10) (17/10) 0 (-3/2) (-3/2) 2 false = Ok m /\ at2 m 1 2 = 1%R /\
  forall v, coverage (ellipse_set (17/10) (17/10) (deg 0)) 2 (px 4 (-3/2) 2) (px 4 (-3/2) 1) v -> (v < 1)%R.
Proof.
  split; [repeat split; lia || lra|]. destruct ellipse_bad as (m & E & V). exists m. split; [auto|]. split; [auto|].
  intros v C. apply (coverage_lt_one _ _ _ _ _ 1 1) in C; auto; try lia.
  unfold ellipse_set, px, sub, deg. change (2 - 4 / 2) with 0. change (1 - 4 / 2) with (-1).
  replace (0 * PI / 180)%R with 0%R by field. rewrite cos_0, sin_0. lra.
Qed.
Lemma ellipse_example : ((1 - / IZR 11) / 2 * Rmax (ellipse_level 1 1 (deg 0) 1 1) (ellipse_level 1 1 (deg 0) 1 (-1))
     <= corner_window 4 4 1 1 (deg 0) 0 (-2))%R.
Proof.
  assert (D : deg 0 = 0%R) by (unfold deg; field). rewrite D.
  assert (L : forall x y, ellipse_level 1 1 0 x y = (/ 2 * sqrt (x ^ 2 + y ^ 2))%R).
  { intros x y. unfold ellipse_level. rewrite cos_0, sin_0. f_equal. f_equal. field. }
  rewrite !L. unfold corner_window. rewrite !L. unfold px. change (0 - 4 / 2) with (-2). change (1 - 4 / 2) with (-1).
  replace ((-2 - 0) ^ 2 + (-2 - -2) ^ 2)%R with (2 * 2)%R by ring.
  replace ((-1 - 0) ^ 2 + (-2 - -2) ^ 2)%R with (1 * 1)%R by ring.
  rewrite !sqrt_square by lra.
  replace (1 ^ 2 + (-1) ^ 2)%R with (1 ^ 2 + 1 ^ 2)%R by ring.
  assert (S2 : (sqrt (1 ^ 2 + 1 ^ 2) < 2)%R).
  { apply Rlt_le_trans with (sqrt (2 * 2)); [apply sqrt_lt_1_alt; lra|rewrite sqrt_square; lra]. }
  eapply Rle_trans; [|apply Rmax_r]. rewrite Rmax_left by lra.
  rewrite Rabs_left by lra. pose proof (sqrt_pos (1 ^ 2 + 1 ^ 2)). 
  assert (((1 - / 11) / 2 * (/ 2 * sqrt (1 ^ 2 + 1 ^ 2)) <= / 2 * / 2 * sqrt (1 ^ 2 + 1 ^ 2)))%R by nra.
  lra.
Qed.
