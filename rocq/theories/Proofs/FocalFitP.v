(** Proofs about the focal-mask offset estimators. *)
From Coq Require Import ZArith Bool List String Reals Lra Lia.
From Verif.Base Require Import Py Arr Sums.
From Verif.Model Require Import Fits Shapes Yaml DarkHole FocalFit.
From Verif.Spec Require Import ShapesSpec DarkHoleSpec FocalFitSpec.
From Verif.Proofs Require Import FitsP ShapesP DarkHoleP.
Import ListNotations.
Open Scope string_scope.
Open Scope R_scope.

Lemma bound_fin x m : 0 <= m -> bound_value (Fin x) m = Ok (Fin (clamp_abs m x)).
Proof.
  intros H. unfold bound_value. rewrite (proj2 (Rleb_iff _ _) H). cbn [guard bind]. unfold clamp_abs, Rmax, Rmin.
  destruct (Rltb m x) eqn:A; [apply Rltb_iff in A|apply Rltb_false in A; destruct (Rltb x (- m)) eqn:B; [apply Rltb_iff in B|apply Rltb_false in B]];
    destruct (Rle_dec m x); destruct (Rle_dec (- m) _); do 2 f_equal; lra.
Qed.
Lemma bound_spec v m :
  (0 <= m -> (forall x, v = Fin x -> exists y, bound_value v m = Ok (Fin y) /\ - m <= y <= m /\
      (- m <= x <= m -> y = x) /\ (m < x -> y = m) /\ (x < - m -> y = - m)) /\
     (v = PInf -> bound_value v m = Ok (Fin m)) /\ (v = NInf -> bound_value v m = Ok (Fin (- m))) /\ (v = NaN -> bound_value v m = Ok NaN)) /\
  (m < 0 -> bound_value v m = Err ValueError).
Proof.
  split.
  - intros H. split.
    + intros x ->. exists (clamp_abs m x). rewrite bound_fin by auto. split; auto. unfold clamp_abs, Rmax, Rmin.
      destruct (Rle_dec m x); destruct (Rle_dec (- m) _); repeat split; intros; lra.
    + unfold bound_value. rewrite (proj2 (Rleb_iff _ _) H). cbn [guard bind]. repeat split; intros ->; reflexivity.
  - intros H. unfold bound_value. rewrite (proj2 (Rleb_false _ _)) by lra. reflexivity.
Qed.

(** ** The response *)
Lemma response_lt c1 c2 d d' r r' : 0 < c1 -> 0 <= c2 -> response c1 c2 d r -> response c1 c2 d' r' -> d < d' -> r < r'.
Proof.
  intros H1 H2 A B L.
  assert (M : forall u v, 0 <= u -> u < v -> c1 * u + c2 * u ^ 2 < c1 * v + c2 * v ^ 2).
  { intros u v Hu Huv. assert (c1 * u < c1 * v) by (apply Rmult_lt_compat_l; auto).
    assert (c2 * u ^ 2 <= c2 * v ^ 2) by (apply Rmult_le_compat_l; [auto|nra]). lra. }
  destruct A as [[P ->]|[P ->]]; destruct B as [[Q ->]|[Q ->]].
  - specialize (M d d' P L). lra.
  - lra.
  - specialize (M 0 (- d) ltac:(lra) ltac:(lra)). replace ((- d) ^ 2) with (d ^ 2) in M by ring.
    assert (/ (1 + c1 * - d + c2 * d ^ 2) < 1) by (rewrite <- Rinv_1; apply Rinv_lt_contravar; lra).
    assert (0 <= c1 * d') by (apply Rmult_le_pos; lra). assert (0 <= c2 * d' ^ 2) by (apply Rmult_le_pos; [auto|nra]). lra.
  - pose proof (M 0 (- d') ltac:(lra) ltac:(lra)) as M0. pose proof (M (- d') (- d) ltac:(lra) ltac:(lra)) as M1.
    replace ((- d) ^ 2) with (d ^ 2) in * by ring. replace ((- d') ^ 2) with (d' ^ 2) in * by ring.
    apply Rinv_lt_contravar; [|lra]. apply Rmult_lt_0_compat; lra.
Qed.
Lemma response_eq c1 c2 d r r' : 0 < c1 -> 0 <= c2 -> response c1 c2 d r -> response c1 c2 d r' -> r = r'.
Proof. intros _ _ [[P ->]|[P ->]] [[Q ->]|[Q ->]]; auto; lra. Qed.
Lemma response_cmp c1 c2 d d' r r' : 0 < c1 -> 0 <= c2 -> response c1 c2 d r -> response c1 c2 d' r' ->
  (r < r' <-> d < d') /\ (r = r' <-> d = d').
Proof.
  intros H1 H2 A B. pose proof (response_lt c1 c2 d d' r r' H1 H2 A B). pose proof (response_lt c1 c2 d' d r' r H1 H2 B A).
  assert (E : d = d' -> r = r') by (intros ->; eapply response_eq; eauto).
  destruct (Rtotal_order d d') as [L|[L|L]]; intuition lra.
Qed.
Lemma response_one c1 c2 : response c1 c2 0 1.
Proof. left. split; lra. Qed.
Lemma response_inv c1 c2 d r : response c1 c2 d r -> response c1 c2 (- d) (/ r).
Proof.
  intros [[P ->]|[P ->]].
  - destruct (Req_dec d 0) as [->|N].
    + left. split; [lra|]. replace (1 + c1 * 0 + c2 * 0 ^ 2) with 1 by ring. rewrite Rinv_1. ring.
    + right. split; [lra|]. f_equal. ring.
  - left. split; [lra|]. rewrite Rinv_inv. ring.
Qed.
Lemma quadratic_ok c1 c2 r : 0 < c1 -> 0 < c2 -> 0 < r -> exists d, offset_quadratic c1 c2 r = Ok (Fin d) /\ response c1 c2 d r.
Proof.
  intros H1 H2 Hr. unfold offset_quadratic. rewrite (proj2 (Rltb_iff _ _) Hr). cbn [guard bind].
  assert (K : forall q, 1 <= q -> let d := c1 * c1 - 4 * c2 * (1 - q) in
     (if Rltb d 0 then NaN else ndiv (- c1 + sqrt d) (2 * c2)) = Fin ((- c1 + sqrt d) / (2 * c2)) /\
     0 <= (- c1 + sqrt d) / (2 * c2) /\ q = 1 + c1 * ((- c1 + sqrt d) / (2 * c2)) + c2 * ((- c1 + sqrt d) / (2 * c2)) ^ 2 /\
     (1 < q -> 0 < (- c1 + sqrt d) / (2 * c2))).
  { intros q Hq d. assert (Hd : c1 * c1 <= d) by (unfold d; nra).
    rewrite (proj2 (Rltb_false d 0)) by nra. unfold ndiv. destruct (Req_EM_T (2 * c2) 0); [lra|]. split; [auto|].
    assert (S : sqrt d * sqrt d = d) by (apply sqrt_sqrt; nra).
    assert (S0 : c1 <= sqrt d) by (apply sqrt_le_1_alt in Hd; rewrite sqrt_square in Hd by lra; auto).
    split; [apply Rmult_le_pos; [lra|left; apply Rinv_0_lt_compat; lra]|]. split.
    - assert (E : 1 + c1 * ((- c1 + sqrt d) / (2 * c2)) + c2 * ((- c1 + sqrt d) / (2 * c2)) ^ 2 = 1 + (sqrt d * sqrt d - c1 * c1) / (4 * c2)) by (field; lra).
      rewrite E, S. unfold d. field. lra.
    - intros Hq'. assert (c1 < sqrt d).
      { rewrite <- (sqrt_square c1) at 1 by lra. apply sqrt_lt_1_alt. unfold d. nra. }
      apply Rmult_lt_0_compat; [lra|apply Rinv_0_lt_compat; lra]. }
  destruct (Rltb r 1) eqn:B.
  - apply Rltb_iff in B. assert (Q : 1 < 1 / r) by (unfold Rdiv; rewrite Rmult_1_l, <- Rinv_1; apply Rinv_lt_contravar; lra).
    destruct (K (1 / r) ltac:(lra)) as (E & P & V & PP). rewrite E. cbn [nopp]. eexists. split; [reflexivity|].
    right. split; [specialize (PP Q); lra|].
    match goal with |- r = / (1 + c1 * - - ?x + c2 * (- ?x) ^ 2) => replace (1 + c1 * - - x + c2 * (- x) ^ 2) with (1 + c1 * x + c2 * x ^ 2) by ring end.
    rewrite <- V. field. lra.
  - apply Rltb_false in B. destruct (K r B) as (E & P & V & PP). rewrite E. eexists. split; [reflexivity|]. left. auto.
Qed.
Lemma linear_ok c1 r : 0 < c1 -> 0 < r -> exists d, offset_linear c1 r = Ok (Fin d) /\ response c1 0 d r.
Proof.
  intros H1 Hr. unfold offset_linear. rewrite (proj2 (Rltb_iff _ _) Hr). cbn [guard bind]. destruct (Req_EM_T c1 0); [lra|].
  eexists. split; [reflexivity|]. destruct (Rltb r 1) eqn:B.
  - apply Rltb_iff in B. assert (Q : 1 < 1 / r) by (unfold Rdiv; rewrite Rmult_1_l, <- Rinv_1; apply Rinv_lt_contravar; lra).
    right. split.
    + assert (0 < (1 / r - 1) / c1) by (apply Rmult_lt_0_compat; [lra|apply Rinv_0_lt_compat; lra]). 
      replace (-1 * (1 / r - 1) / c1) with (- ((1 / r - 1) / c1)) by (field; lra). lra.
    + replace (1 + c1 * - (-1 * (1 / r - 1) / c1) + 0 * (-1 * (1 / r - 1) / c1) ^ 2) with (1 / r) by (field; lra). field. lra.
  - apply Rltb_false in B. left. split.
    + rewrite Rmult_1_l. apply Rmult_le_pos; [lra|left; apply Rinv_0_lt_compat; lra].
    + field. lra.
Qed.
Lemma quadratic_val c1 c2 r d : 0 < c1 -> 0 < c2 -> 0 < r -> (offset_quadratic c1 c2 r = Ok (Fin d) <-> response c1 c2 d r).
Proof.
  intros H1 H2 Hr. destruct (quadratic_ok c1 c2 r H1 H2 Hr) as (d' & E & A). rewrite E. split.
  - intros [= <-]. auto.
  - intros B. do 2 f_equal. apply (response_cmp c1 c2 d' d r r); auto. lra.
Qed.
Lemma linear_val c1 r d : 0 < c1 -> 0 < r -> (offset_linear c1 r = Ok (Fin d) <-> response c1 0 d r).
Proof.
  intros H1 Hr. destruct (linear_ok c1 r H1 Hr) as (d' & E & A). rewrite E. split.
  - intros [= <-]. auto.
  - intros B. do 2 f_equal. apply (response_cmp c1 0 d' d r r); auto. lra.
Qed.
Lemma offset_bad_ratio c1 c2 r : r <= 0 -> offset_quadratic c1 c2 r = Err ValueError /\ offset_linear c1 r = Err ValueError.
Proof. intros H. unfold offset_quadratic, offset_linear. rewrite (proj2 (Rltb_false 0 r)) by lra. auto. Qed.
Lemma quadratic_mirror c1 c2 r d : 0 < c1 -> 0 < c2 -> 0 < r -> offset_quadratic c1 c2 r = Ok (Fin d) ->
  offset_quadratic c1 c2 (/ r) = Ok (Fin (- d)).
Proof.
  intros H1 H2 Hr. rewrite !quadratic_val by (auto; apply Rinv_0_lt_compat; auto). apply response_inv.
Qed.
Lemma linear_mirror c1 r d : 0 < c1 -> 0 < r -> offset_linear c1 r = Ok (Fin d) -> offset_linear c1 (/ r) = Ok (Fin (- d)).
Proof. intros H1 Hr. rewrite !linear_val by (auto; apply Rinv_0_lt_compat; auto). apply response_inv. Qed.
Lemma quadratic_increasing c1 c2 r r' d d' : 0 < c1 -> 0 < c2 -> 0 < r -> 0 < r' -> offset_quadratic c1 c2 r = Ok (Fin d) ->
  offset_quadratic c1 c2 r' = Ok (Fin d') -> (r < r' <-> d < d').
Proof. intros H1 H2 Hr Hr' A B. rewrite quadratic_val in A, B by auto. apply (response_cmp c1 c2); auto. lra. Qed.
Lemma linear_increasing c1 r r' d d' : 0 < c1 -> 0 < r -> 0 < r' -> offset_linear c1 r = Ok (Fin d) ->
  offset_linear c1 r' = Ok (Fin d') -> (r < r' <-> d < d').
Proof. intros H1 Hr Hr' A B. rewrite linear_val in A, B by auto. apply (response_cmp c1 0); auto. lra. Qed.
Lemma offset_zero c1 c2 r d : 0 < c1 -> 0 < r -> (0 < c2 -> offset_quadratic c1 c2 r = Ok (Fin d) -> (d = 0 <-> r = 1)) /\
  (offset_linear c1 r = Ok (Fin d) -> (d = 0 <-> r = 1)).
Proof.
  intros H1 Hr. split.
  - intros H2 A. rewrite quadratic_val in A by auto. pose proof (response_cmp c1 c2 d 0 r 1 H1 ltac:(lra) A (response_one c1 c2)). tauto.
  - intros A. rewrite linear_val in A by auto. pose proof (response_cmp c1 0 d 0 r 1 H1 ltac:(lra) A (response_one c1 0)). tauto.
Qed.
(** Coefficients that are not positive are not rejected. *)
Lemma unchecked_coefficients r : 0 < r -> (forall c1, 0 < c1 -> offset_quadratic c1 0 r = Ok NaN) /\
  (forall c2, c2 < 0 -> r <> 1 -> offset_quadratic 0 c2 r = Ok NaN) /\ offset_linear 0 r = Err ZeroDivisionError.
Proof.
  intros Hr. unfold offset_quadratic, offset_linear. rewrite (proj2 (Rltb_iff _ _) Hr). cbn [guard bind]. repeat split.
  - intros c1 H. assert (E : forall q, c1 * c1 - 4 * 0 * (1 - q) = c1 * c1) by (intros; ring). rewrite E.
    rewrite (proj2 (Rltb_false (c1 * c1) 0)) by nra. rewrite sqrt_square by lra. unfold ndiv. destruct (Req_EM_T (2 * 0) 0); [|lra].
    destruct (Req_EM_T (- c1 + c1) 0); [|lra]. destruct (Rltb r 1); reflexivity.
  - intros c2 H N. assert (Q : 1 < if Rltb r 1 then 1 / r else r).
    { destruct (Rltb r 1) eqn:B; [apply Rltb_iff in B|apply Rltb_false in B; lra].
      unfold Rdiv; rewrite Rmult_1_l, <- Rinv_1; apply Rinv_lt_contravar; lra. }
    set (q := if Rltb r 1 then 1 / r else r) in *. assert (0 < - c2 * (q - 1)) by (apply Rmult_lt_0_compat; lra).
    rewrite (proj2 (Rltb_iff (0 * 0 - 4 * c2 * (1 - q)) 0)) by lra. destruct (Rltb r 1); reflexivity.
  - destruct (Req_EM_T 0 0); [reflexivity|lra].
Qed.

(** ** Spots *)
Lemma roi_ok img r x y ns : (1 < nc img)%Z -> (0 < nr img)%Z -> 0 < r -> (0 < ns)%Z ->
  exists m, roi img r x y ns = Ok m /\ spot_sum img r x y ns (masked_sum m img).
Proof.
  intros H1 H2 Hr Hn. destruct (circle_ok (nc img) (nr img) r x y ns false) as (m & E & R & C & V); [repeat split; auto|].
  exists m. split; [exact E|]. exists (at2 m). split; [|reflexivity].
  intros i j Hi Hj. destruct (V i j Hi Hj) as (v & A & ->). exact A.
Qed.
Lemma spot_sum_det img r x y ns s s' : spot_sum img r x y ns s -> spot_sum img r x y ns s' -> s = s'.
Proof.
  intros (w & A & ->) (w' & A' & ->). apply rsum2_ext. intros i j Hi Hj. f_equal. eapply coverage_unique; eauto.
Qed.
Lemma feps_pos : 0 < feps.
Proof. unfold feps. apply Rinv_0_lt_compat. apply pow_lt. lra. Qed.
Lemma floor_ok s : floored s (floor_sum s) /\ 0 < floor_sum s.
Proof.
  unfold floor_sum. destruct (Rleb s 0) eqn:B; [apply Rleb_iff in B|apply Rleb_false in B].
  - split; [right; auto|apply feps_pos].
  - split; [left; auto|auto].
Qed.
Lemma floored_det s v v' : floored s v -> floored s v' -> v = v'.
Proof. intros [[P ->]|[P ->]] [[Q ->]|[Q ->]]; auto; lra. Qed.
Lemma spot_det img r xo yo sep t ns v v' : spot img r xo yo sep t ns v -> spot img r xo yo sep t ns v' -> v = v'.
Proof.
  intros (s & A & B) (s' & A' & B'). rewrite (spot_sum_det _ _ _ _ _ _ _ A A') in B. eapply floored_det; eauto.
Qed.
Lemma spot_pos img r xo yo sep t ns v : spot img r xo yo sep t ns v -> 0 < v.
Proof. intros (s & _ & [[P ->]|[P ->]]); auto. apply feps_pos. Qed.
Lemma spot_ok img r xo yo sep t ns x y : (1 < nc img)%Z -> (0 < nr img)%Z -> 0 < r -> (0 < ns)%Z ->
  x = xo + sep * cos t -> y = yo + sep * sin t ->
  exists m, roi img r x y ns = Ok m /\ spot img r xo yo sep t ns (floor_sum (masked_sum m img)).
Proof.
  intros H1 H2 Hr Hn -> ->. destruct (roi_ok img r (xo + sep * cos t) (yo + sep * sin t) ns) as (m & E & A); auto.
  exists m. split; auto. exists (masked_sum m img). split; auto. apply floor_ok.
Qed.
Lemma as_int_ok v z : as_int v = Some z <-> is_int v z.
Proof.
  split.
  - destruct v; cbn; try discriminate; intros [= <-]; constructor.
  - destruct 1; reflexivity.
Qed.
Lemma deg_eq t : PI / 180 * t = deg t. Proof. unfold deg. field. Qed.

Ltac get K := let x := fresh "x" in let A := fresh "A" in let B := fresh "B" in destruct K as (x & A & B);
  rewrite (proj2 (item_has _ _ _) A); cbn [bind].
Lemma spots_ok img rot xo yo tv gv t ratio : describes_tuning tv t -> describes_target gv ratio -> (1 < nc img)%Z -> (0 < nr img)%Z ->
  exists vp vm d0 dt, spot img (t_radius t) xo yo (t_sep t) (deg rot) (t_sub t) vp /\
   spot img (t_radius t) xo yo (t_sep t) (deg rot + PI) (t_sub t) vm /\
   response (t_c1 t) (t_quad t) d0 (vp / vm) /\ response (t_c1 t) (t_quad t) dt ratio /\
   calc_offset_from_spots img rot xo yo tv gv = Ok (Fin (side (t_inside t) * clamp_abs (t_max t) (d0 - dt))).
Proof.
  intros (K1 & P1 & K2 & P2 & K3 & P3 & K4 & P4 & K5 & P5 & K6 & P6 & K7 & P7 & K8) (G & PG) Hc Hr.
  unfold calc_offset_from_spots. get G. rewrite (proj2 (positive_ok x ratio)) by auto. cbn [bind].
  get K1. get K2. get K3. get K4. get K5. get K6. get K7. get K8.
  rewrite (proj2 (positive_ok x0 _) (conj B0 P1)), (proj2 (positive_ok x1 _) (conj B1 P2)), (proj2 (int_ok x2 _) (conj B2 P3)),
    (proj2 (positive_ok x3 _) (conj B3 P4)), (proj2 (positive_ok x4 _) (conj B4 P5)), (proj2 (positive_ok x5 _) (conj B5 P6)). cbn [bind].
  rewrite (proj2 (int_ok x6 (t_power t))) by (split; [auto|lia]). cbn [bind].
  assert (Pw : ((t_power t =? 1) || (t_power t =? 2))%Z%bool = true) by (destruct P7 as [-> | ->]; reflexivity). rewrite Pw. cbn [guard bind].
  rewrite (proj2 (as_int_ok x7 _) B7).
  assert (In : (((if t_inside t then 1 else 0) =? 0) || ((if t_inside t then 1 else 0) =? 1))%Z%bool = true) by (destruct (t_inside t); reflexivity).
  rewrite In. cbn [guard bind]. rewrite deg_eq.
  destruct (spot_ok img (t_radius t) xo yo (t_sep t) (deg rot) (t_sub t) (cos (deg rot) * t_sep t + xo) (sin (deg rot) * t_sep t + yo)) as (mp & Ep & Sp); auto; try ring.
  destruct (spot_ok img (t_radius t) xo yo (t_sep t) (deg rot + PI) (t_sub t) (cos (deg rot + PI) * t_sep t + xo) (sin (deg rot + PI) * t_sep t + yo)) as (mm & Em & Sm); auto; try ring.
  rewrite Ep, Em. cbn [bind]. set (vp := floor_sum (masked_sum mp img)) in *. set (vm := floor_sum (masked_sum mm img)) in *.
  assert (Q : 0 < vp / vm) by (apply Rmult_lt_0_compat; [|apply Rinv_0_lt_compat]; eapply spot_pos; eauto).
  assert (O : forall r, 0 < r -> exists d, (if (t_power t =? 1)%Z then offset_linear (t_c1 t) r else offset_quadratic (t_c1 t) (t_c2 t) r) = Ok (Fin d) /\ response (t_c1 t) (t_quad t) d r).
  { intros r H. unfold t_quad. destruct (t_power t =? 1)%Z; [apply linear_ok|apply quadratic_ok]; auto. }
  destruct (O _ Q) as (d0 & E0 & R0). destruct (O _ PG) as (dt & Et & Rt). exists vp, vm, d0, dt.
  split; [auto|]. split; [auto|]. split; [auto|]. split; [auto|]. rewrite E0, Et. cbn [bind nsub]. rewrite bound_fin by lra. cbn [bind].
  destruct (t_inside t); cbn; do 2 f_equal; unfold side; ring.
Qed.
Lemma clamp_abs_range m x : 0 <= m -> - m <= clamp_abs m x <= m.
Proof. intros H. unfold clamp_abs, Rmax, Rmin. destruct (Rle_dec m x); destruct (Rle_dec (- m) _); lra. Qed.
Lemma clamp_abs_sign m x : 0 < m -> (clamp_abs m x = 0 <-> x = 0) /\ (0 < clamp_abs m x <-> 0 < x) /\ (clamp_abs m x < 0 <-> x < 0).
Proof. intros H. unfold clamp_abs, Rmax, Rmin. destruct (Rle_dec m x); destruct (Rle_dec (- m) _); intuition lra. Qed.
Lemma clamp_abs_opp m x : 0 <= m -> clamp_abs m (- x) = - clamp_abs m x.
Proof. intros H. unfold clamp_abs, Rmax, Rmin. destruct (Rle_dec m x); destruct (Rle_dec m (- x)); repeat match goal with |- context [Rle_dec ?a ?b] => destruct (Rle_dec a b) end; lra. Qed.
(** Only files with valid contents produce a result. *)
Lemma spots_inv img rot xo yo tv gv out : calc_offset_from_spots img rot xo yo tv gv = Ok out ->
  exists t ratio, describes_tuning tv t /\ describes_target gv ratio /\ (1 < nc img)%Z /\ (0 < nr img)%Z.
Proof.
  unfold calc_offset_from_spots. intros H. do 17 (inv_bind H). 
  apply guard_ok in H as [Gp H]. destruct (as_int v8) as [ins|] eqn:Ei; [|discriminate]. apply guard_ok in H as [Gi H]. inv_bind H. inv_bind H.
  apply item_has in E, E1, E2, E3, E4, E5, E6, E7, E8. apply as_int_ok in Ei.
  apply positive_ok in E0 as [E0 P0], E9 as [E9 P9], E10 as [E10 P10], E12 as [E12 P12], E13 as [E13 P13], E14 as [E14 P14].
  apply int_ok in E11 as [E11 P11], E15 as [E15 P15].
  apply orb_prop in Gp, Gi. rewrite !Z.eqb_eq in Gp, Gi.
  exists (Tuning v9 v10 v11 v12 v13 v14 v15 (negb (ins =? 0)%Z)), v0.
  split; [|split; [split; [exists v; auto|auto]|]].
  - unfold describes_tuning; cbn [t_sep t_radius t_sub t_max t_c1 t_c2 t_power t_inside].
    repeat split; try (eexists; split; eassumption); auto.
    exists v8. split; auto. destruct Gi as [-> | ->]; exact Ei.
  - unfold roi in E16. destruct (circle_err (nc img) (nr img) v10 (cos (PI / 180 * rot) * v9 + xo) (sin (PI / 180 * rot) * v9 + yo) v11 false) as [C1 C2].
    destruct (Z_lt_le_dec 0 (nr img)).
    + split; auto. destruct (Z_lt_le_dec 0 (nc img)); [|rewrite C1 in E16 by auto; discriminate].
      destruct (Z.eq_dec (nc img) 1); [rewrite C2 in E16 by auto; discriminate|lia].
    + rewrite C1 in E16 by auto. discriminate.
Qed.
Lemma spots_bounded img rot xo yo tv gv out m : calc_offset_from_spots img rot xo yo tv gv = Ok out -> has_real tv "maxStep" m ->
  exists o, out = Fin o /\ - m <= o <= m.
Proof.
  intros H (x & A & B). destruct (spots_inv _ _ _ _ _ _ _ H) as (t & ratio & D & G & Hc & Hr).
  destruct (spots_ok img rot xo yo tv gv t ratio D G Hc Hr) as (vp & vm & d0 & dt & _ & _ & _ & _ & E). rewrite H in E. injection E as ->.
  eexists. split; [reflexivity|].
  assert (m = t_max t) as ->.
  { destruct D as (_ & _ & _ & _ & _ & _ & (x' & A' & B') & _). rewrite (has_det _ _ _ _ A A') in B. 
    destruct B; inversion B'; auto. }
  assert (P : 0 < t_max t) by apply D. pose proof (clamp_abs_range (t_max t) (d0 - dt)). destruct (t_inside t); unfold side; lra.
Qed.
Lemma spots_sign img rot xo yo tv gv t ratio vp vm o : describes_tuning tv t -> describes_target gv ratio ->
  spot img (t_radius t) xo yo (t_sep t) (deg rot) (t_sub t) vp ->
  spot img (t_radius t) xo yo (t_sep t) (deg rot + PI) (t_sub t) vm ->
  calc_offset_from_spots img rot xo yo tv gv = Ok (Fin o) ->
  (o = 0 <-> vp / vm = ratio) /\
  (t_inside t = true -> (0 < o <-> ratio < vp / vm) /\ (o < 0 <-> vp / vm < ratio)) /\
  (t_inside t = false -> (o < 0 <-> ratio < vp / vm) /\ (0 < o <-> vp / vm < ratio)).
Proof.
  intros D G Sp Sm H. destruct (spots_inv _ _ _ _ _ _ _ H) as (_ & _ & _ & _ & Hc & Hr).
  destruct (spots_ok img rot xo yo tv gv t ratio D G Hc Hr) as (vp' & vm' & d0 & dt & Sp' & Sm' & R0 & Rt & E). rewrite H in E. injection E as ->.
  rewrite (spot_det _ _ _ _ _ _ _ _ _ Sp Sp'), (spot_det _ _ _ _ _ _ _ _ _ Sm Sm').
  assert (P : 0 < t_max t) by apply D. assert (P1 : 0 < t_c1 t) by apply D. assert (P2 : 0 < t_c2 t) by apply D.
  assert (P3 : 0 <= t_quad t) by (unfold t_quad; destruct (t_power t =? 1)%Z; lra).
  destruct (response_cmp _ _ _ _ _ _ P1 P3 R0 Rt) as [C1 C2]. destruct (response_cmp _ _ _ _ _ _ P1 P3 Rt R0) as [C3 _].
  destruct (clamp_abs_sign (t_max t) (d0 - dt) P) as (S1 & S2 & S3). rewrite C1, C2, C3.
  split; [|split; intros ->; unfold side; intuition lra].
  destruct (t_inside t); unfold side; intuition lra.
Qed.
(** Turning the probe axis by 180 degrees reverses the estimate when equal spots are the target. *)
Lemma spots_reversed img rot xo yo tv gv t o : describes_tuning tv t -> describes_target gv 1 ->
  calc_offset_from_spots img rot xo yo tv gv = Ok (Fin o) -> calc_offset_from_spots img (rot + 180) xo yo tv gv = Ok (Fin (- o)).
Proof.
  intros D G H. destruct (spots_inv _ _ _ _ _ _ _ H) as (_ & _ & _ & _ & Hc & Hr).
  destruct (spots_ok img rot xo yo tv gv t 1 D G Hc Hr) as (vp & vm & d0 & dt & Sp & Sm & R0 & Rt & E). rewrite H in E. injection E as ->.
  destruct (spots_ok img (rot + 180) xo yo tv gv t 1 D G Hc Hr) as (vp' & vm' & d0' & dt' & Sp' & Sm' & R0' & Rt' & ->).
  assert (T1 : deg (rot + 180) = deg rot + PI) by (unfold deg; field). rewrite T1 in Sp', Sm'.
  assert (Sm'' : spot img (t_radius t) xo yo (t_sep t) (deg rot) (t_sub t) vm').
  { destruct Sm' as (s & A & B). exists s. split; auto. rewrite Rplus_assoc in A. replace (PI + PI) with (2 * PI) in A by ring.
    rewrite cos_2PI_period, sin_2PI_period in A || (rewrite cos_plus, sin_plus, cos_2PI, sin_2PI in A).
    replace (cos (deg rot) * 1 - sin (deg rot) * 0) with (cos (deg rot)) in A by ring.
    replace (sin (deg rot) * 1 + cos (deg rot) * 0) with (sin (deg rot)) in A by ring. exact A. }
  rewrite (spot_det _ _ _ _ _ _ _ _ _ Sp' Sm) in *. rewrite (spot_det _ _ _ _ _ _ _ _ _ Sm'' Sp) in *.
  assert (P : 0 < t_max t) by apply D. assert (P1 : 0 < t_c1 t) by apply D. assert (P2 : 0 < t_c2 t) by apply D.
  assert (P3 : 0 <= t_quad t) by (unfold t_quad; destruct (t_power t =? 1)%Z; lra).
  assert (dt = 0) by (apply (response_cmp _ _ _ _ _ _ P1 P3 Rt (response_one _ _)); auto).
  assert (dt' = 0) by (apply (response_cmp _ _ _ _ _ _ P1 P3 Rt' (response_one _ _)); auto). subst dt dt'.
  apply response_inv in R0. replace (/ (vp / vm)) with (vm / vp) in R0.
  2:{ apply spot_pos in Sp, Sm. field. lra. }
  assert (d0' = - d0) by (apply (response_cmp _ _ _ _ _ _ P1 P3 R0' R0); auto). subst d0'.
  replace (- d0 - 0) with (- (d0 - 0)) by ring. rewrite clamp_abs_opp by lra. do 2 f_equal. ring.
Qed.

(** ** Bowtie *)
Lemma real_iff v r : as_real v = Some r <-> is_real v r.
Proof.
  rewrite <- real_ok. unfold real_scalar_. destruct (as_real v); split; congruence.
Qed.
Lemma bowtie_ok img xo yo tv t : describes_bowtie tv t -> (1 < nc img)%Z -> (0 < nr img)%Z ->
  exists v1 v2 v3 v4 dx dxt dy dyt,
   let sp a v := spot img (b_radius t) xo yo (b_sep t) a (b_sub t) v in
   sp (deg (b_extra t) + deg (b_rot t)) v1 /\ sp (deg (b_extra t) - deg (b_rot t) + PI) v2 /\
   sp (deg (b_extra t) + deg (b_rot t) + PI) v3 /\ sp (deg (b_extra t) - deg (b_rot t)) v4 /\
   response (b_c1x t) (b_c2x t) dx ((v1 + v4) / (v2 + v3)) /\ response (b_c1x t) (b_c2x t) dxt (b_tx t) /\
   response (b_c1y t) (b_c2y t) dy ((v1 + v2) / (v3 + v4)) /\ response (b_c1y t) (b_c2y t) dyt (b_ty t) /\
   calc_bowtie_offsets img xo yo tv = Ok (Fin (- clamp_abs (b_max t) (dx - dxt)), Fin (- clamp_abs (b_max t) (dy - dyt))).
Proof.
  intros (K1 & P1 & K2 & K3 & K4 & P4 & K5 & P5 & K6 & P6 & K7 & P7 & K8 & P8 & K9 & P9 & K10 & P10 & K11 & P11 & K12 & P12) Hc Hr.
  unfold calc_bowtie_offsets. get K1. get K2. get K3. get K4. get K5. get K6. get K7. get K8. get K9. get K10. get K11. get K12.
  rewrite (proj2 (positive_ok x _) (conj B P1)), (proj2 (positive_ok x2 _) (conj B2 P4)), (proj2 (int_ok x3 _) (conj B3 P5)),
    (proj2 (positive_ok x4 _) (conj B4 P6)), (proj2 (positive_ok x5 _) (conj B5 P7)), (proj2 (positive_ok x6 _) (conj B6 P8)),
    (proj2 (positive_ok x7 _) (conj B7 P9)), (proj2 (positive_ok x8 _) (conj B8 P10)). cbn [bind].
  unfold degrees_. rewrite (proj2 (real_iff x0 _) B0), (proj2 (real_iff x1 _) B1). cbn [bind].
  unfold ratio_. rewrite (proj2 (real_iff x9 _) B9), (proj2 (real_iff x10 _) B10). rewrite !deg_eq.
  assert (CP : forall a, cos (a + PI) = - cos a) by (intros; apply neg_cos). assert (SP : forall a, sin (a + PI) = - sin a) by (intros; apply neg_sin).
  destruct (spot_ok img (b_radius t) xo yo (b_sep t) (deg (b_extra t) + deg (b_rot t)) (b_sub t) (b_sep t * cos (deg (b_rot t) + deg (b_extra t)) + xo) (b_sep t * sin (deg (b_rot t) + deg (b_extra t)) + yo)) as (m1 & E1 & S1); auto;
    try (rewrite (Rplus_comm (deg (b_rot t))); ring).
  destruct (spot_ok img (b_radius t) xo yo (b_sep t) (deg (b_extra t) - deg (b_rot t) + PI) (b_sub t) (- b_sep t * cos (- deg (b_rot t) + deg (b_extra t)) + xo) (- b_sep t * sin (- deg (b_rot t) + deg (b_extra t)) + yo)) as (m2 & E2 & S2); auto;
    try (rewrite ?CP, ?SP; rewrite (Rplus_comm (- deg (b_rot t))); unfold Rminus; ring).
  destruct (spot_ok img (b_radius t) xo yo (b_sep t) (deg (b_extra t) + deg (b_rot t) + PI) (b_sub t) (- b_sep t * cos (deg (b_rot t) + deg (b_extra t)) + xo) (- b_sep t * sin (deg (b_rot t) + deg (b_extra t)) + yo)) as (m3 & E3 & S3); auto;
    try (rewrite ?CP, ?SP; rewrite (Rplus_comm (deg (b_rot t))); ring).
  destruct (spot_ok img (b_radius t) xo yo (b_sep t) (deg (b_extra t) - deg (b_rot t)) (b_sub t) (b_sep t * cos (- deg (b_rot t) + deg (b_extra t)) + xo) (b_sep t * sin (- deg (b_rot t) + deg (b_extra t)) + yo)) as (m4 & E4 & S4); auto;
    try (rewrite (Rplus_comm (- deg (b_rot t))); unfold Rminus; ring).
  rewrite E1, E2, E3, E4. cbn [bind].
  set (v1 := floor_sum (masked_sum m1 img)) in *. set (v2 := floor_sum (masked_sum m2 img)) in *.
  set (v3 := floor_sum (masked_sum m3 img)) in *. set (v4 := floor_sum (masked_sum m4 img)) in *.
  pose proof (spot_pos _ _ _ _ _ _ _ _ S1). pose proof (spot_pos _ _ _ _ _ _ _ _ S2). pose proof (spot_pos _ _ _ _ _ _ _ _ S3). pose proof (spot_pos _ _ _ _ _ _ _ _ S4).
  assert (Qx : 0 < (v1 + v4) / (v2 + v3)) by (apply Rmult_lt_0_compat; [lra|apply Rinv_0_lt_compat; lra]).
  assert (Qy : 0 < (v1 + v2) / (v3 + v4)) by (apply Rmult_lt_0_compat; [lra|apply Rinv_0_lt_compat; lra]).
  destruct (quadratic_ok _ _ _ P7 P8 Qx) as (dx & Ex & Rx). destruct (quadratic_ok _ _ _ P7 P8 P11) as (dxt & Ext & Rxt).
  destruct (quadratic_ok _ _ _ P9 P10 Qy) as (dy & Ey & Ry). destruct (quadratic_ok _ _ _ P9 P10 P12) as (dyt & Eyt & Ryt).
  exists v1, v2, v3, v4, dx, dxt, dy, dyt. cbv zeta. repeat (split; [assumption|]).
  rewrite Ex. cbn [bind]. rewrite Ext. cbn [bind]. rewrite Ey. cbn [bind]. rewrite Eyt. cbn [bind nopp nsub].
  rewrite !bound_fin by lra. cbn [bind]. do 3 f_equal.
  - rewrite <- clamp_abs_opp by lra. f_equal. ring.
  - f_equal. rewrite <- clamp_abs_opp by lra. f_equal. ring.
Qed.
Lemma bowtie_inv img xo yo tv o : calc_bowtie_offsets img xo yo tv = Ok o -> exists t, describes_bowtie tv t /\ (1 < nc img)%Z /\ (0 < nr img)%Z.
Proof.
  unfold calc_bowtie_offsets. intros H. do 22 (inv_bind H). inv_bind H. inv_bind H. inv_bind H. inv_bind H. inv_bind H. inv_bind H. inv_bind H. inv_bind H. inv_bind H. inv_bind H.
  apply item_has in E, E0, E1, E2, E3, E4, E5, E6, E7, E8, E9, E10.
  apply positive_ok in E11 as [E11 P11], E12 as [E12 P12], E14 as [E14 P14], E15 as [E15 P15], E16 as [E16 P16], E17 as [E17 P17], E18 as [E18 P18].
  apply int_ok in E13 as [E13 P13]. 
  unfold degrees_ in E19, E20. destruct (as_real v0) as [r0|] eqn:R0; [|discriminate]. destruct (as_real v1) as [r1|] eqn:R1; [|discriminate].
  unfold ratio_ in *. destruct (as_real v9) as [r9|] eqn:R9; [|discriminate]. destruct (as_real v10) as [r10|] eqn:R10; [|discriminate].
  apply real_iff in R0, R1, R9, R10.
  assert (G : forall c1 c2 r x, offset_quadratic c1 c2 r = Ok x -> 0 < r).
  { intros c1 c2 r x Q. destruct (Rlt_dec 0 r); auto. rewrite (proj1 (offset_bad_ratio c1 c2 r ltac:(lra))) in Q. discriminate. }
  exists (BowtieTuning v11 r0 r1 v12 v13 v14 v15 v16 v17 v18 r9 r10).
  split.
  - unfold describes_bowtie; cbn [b_sep b_rot b_extra b_radius b_sub b_max b_c1x b_c2x b_c1y b_c2y b_tx b_ty].
    repeat match goal with K : Ok _ = Ok _ |- _ => injection K as <- end.
    repeat split; try (eexists; split; eassumption); auto; eapply G; eassumption.
  - unfold roi in E21.
    match type of E21 with circle _ _ _ ?x ?y ?n _ = _ => destruct (circle_err (nc img) (nr img) v12 x y n false) as [C1 C2] end.
    destruct (Z_lt_le_dec 0 (nr img)).
    + split; auto. destruct (Z_lt_le_dec 0 (nc img)); [|rewrite C1 in E21 by auto; discriminate].
      destruct (Z.eq_dec (nc img) 1); [rewrite C2 in E21 by auto; discriminate|lia].
    + rewrite C1 in E21 by auto. discriminate.
Qed.
Lemma bowtie_props img xo yo tv t ox oy v1 v2 v3 v4 : describes_bowtie tv t -> calc_bowtie_offsets img xo yo tv = Ok (ox, oy) ->
  let sp a v := spot img (b_radius t) xo yo (b_sep t) a (b_sub t) v in
  sp (deg (b_extra t) + deg (b_rot t)) v1 -> sp (deg (b_extra t) - deg (b_rot t) + PI) v2 ->
  sp (deg (b_extra t) + deg (b_rot t) + PI) v3 -> sp (deg (b_extra t) - deg (b_rot t)) v4 ->
  exists x y, ox = Fin x /\ oy = Fin y /\ - b_max t <= x <= b_max t /\ - b_max t <= y <= b_max t /\
   (x = 0 <-> (v1 + v4) / (v2 + v3) = b_tx t) /\ (x < 0 <-> b_tx t < (v1 + v4) / (v2 + v3)) /\
   (y = 0 <-> (v1 + v2) / (v3 + v4) = b_ty t) /\ (y < 0 <-> b_ty t < (v1 + v2) / (v3 + v4)).
Proof.
  intros D H sp S1 S2 S3 S4. destruct (bowtie_inv _ _ _ _ _ H) as (_ & _ & Hc & Hr).
  destruct (bowtie_ok img xo yo tv t D Hc Hr) as (w1 & w2 & w3 & w4 & dx & dxt & dy & dyt & T1 & T2 & T3 & T4 & Rx & Rxt & Ry & Ryt & E).
  rewrite H in E. injection E as -> ->. unfold sp in *.
  rewrite (spot_det _ _ _ _ _ _ _ _ _ S1 T1), (spot_det _ _ _ _ _ _ _ _ _ S2 T2), (spot_det _ _ _ _ _ _ _ _ _ S3 T3), (spot_det _ _ _ _ _ _ _ _ _ S4 T4).
  eexists. eexists. split; [reflexivity|]. split; [reflexivity|].
  destruct D as (_ & _ & _ & _ & _ & _ & _ & _ & _ & P & _ & P7 & _ & P8 & _ & P9 & _ & P10 & _).
  pose proof (clamp_abs_range (b_max t) (dx - dxt) ltac:(lra)). pose proof (clamp_abs_range (b_max t) (dy - dyt) ltac:(lra)).
  split; [lra|]. split; [lra|].
  destruct (response_cmp _ _ _ _ _ _ P7 (Rlt_le _ _ P8) Rx Rxt) as [_ C2]. destruct (response_cmp _ _ _ _ _ _ P7 (Rlt_le _ _ P8) Rxt Rx) as [C3 _].
  destruct (response_cmp _ _ _ _ _ _ P9 (Rlt_le _ _ P10) Ry Ryt) as [_ C5]. destruct (response_cmp _ _ _ _ _ _ P9 (Rlt_le _ _ P10) Ryt Ry) as [C6 _].
  destruct (clamp_abs_sign (b_max t) (dx - dxt) P) as (X1 & X2 & X3). destruct (clamp_abs_sign (b_max t) (dy - dyt) P) as (Y1 & Y2 & Y3).
  rewrite C2, C3, C5, C6. repeat split; intros; try lra; intuition lra.
Qed.
