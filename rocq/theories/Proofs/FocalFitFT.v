(** calc_offset_from_spots and calc_bowtie_offsets on photon counts, in double precision. *)
From Coq Require Import ZArith Reals Bool List Lia Lra.
From Flocq Require Import Core BinarySingleNaN.
From Verif.Base Require Import Py Arr Sums F64.
From Verif.Model Require Import ShapesF FocalFitF.
From Verif.Spec Require Import BrightFSpec FocalFitFSpec.
From Verif.Proofs Require Import F64P F64N ShapesFA BrightFP FocalFitFP FocalFitFQ FocalFitFR FocalFitFS.
Import ListNotations.
Local Open Scope R_scope.
Local Notation B := (bpow radix2).

Definition clip (m v : R) : R := if Rlt_bool m v then m else if Rlt_bool v (- m) then - m else v.
Lemma clip_mono m v v' : 0 < m -> v <= v' -> clip m v <= clip m v'.
Proof.
  intros P L. unfold clip. destruct (Rlt_bool_spec m v), (Rlt_bool_spec m v'), (Rlt_bool_spec v (- m)), (Rlt_bool_spec v' (- m)); lra.
Qed.
Lemma clip_range m v : 0 < m -> - m <= clip m v <= m.
Proof. intros P. unfold clip. destruct (Rlt_bool_spec m v), (Rlt_bool_spec v (- m)); lra. Qed.
Lemma clip_zero m : 0 < m -> clip m 0 = 0.
Proof. intros P. unfold clip. rewrite !Rlt_bool_false by lra. reflexivity. Qed.
Lemma ordinary_pos x : ordinary x -> is_finite x = true /\ 0 < fval x /\ fle x fzero = false /\ fisnan x = false.
Proof.
  intros [F H]. pose proof (bpow_gt_0 radix2 (-100)). split; auto. split; [lra|]. split; [rewrite fle_val by auto; apply Rle_bool_false; change (fval fzero) with 0; lra|].
  destruct x; auto; discriminate F.
Qed.
Lemma bound_val x m : is_finite x = true -> ordinary m ->
  exists v, bound_value_f x m = Ok v /\ is_finite v = true /\ fval v = clip (fval m) (fval x).
Proof.
  intros F Hm. destruct (ordinary_pos m Hm) as (Fm & Pm & _ & _). unfold bound_value_f.
  assert (E : flt m fzero = false) by (rewrite flt_val by auto; apply Rlt_bool_false; change (fval fzero) with 0; lra). rewrite E. cbn [negb guard bind].
  rewrite !flt_val by (rewrite ?fin_opp; auto). rewrite fval_opp. eexists. split; [reflexivity|]. unfold clip.
  destruct (Rlt_bool (fval m) (fval x)); [auto|]. destruct (Rlt_bool (fval x) (- fval m)); [rewrite fin_opp, fval_opp; auto|auto].
Qed.

(** Ratios of regions. *)
Definition positive_sum (s : f64) : Prop := is_finite s = true /\ B (-52) <= fval s <= B 401.
Lemma ratio_ok s s' : positive_sum s -> positive_sum s' -> ratio_like (fdiv s s') /\ fval (fdiv s s') = rnd64 (fval s / fval s').
Proof.
  intros [F H] [F' H']. pose proof (bpow_gt_0 radix2 (-52)) as P.
  destruct (fdiv_within 401 (-52) s s' ltac:(lia)) as [V W]; [split; auto; rewrite Rabs_right; lra|lra|]. split; auto.
  split; [apply W|]. destruct W as [_ W]. apply Rabs_le_inv in W. split; [|apply Rle_trans with (B (401 - -52)); [apply W|apply bpow_le; lia]].
  rewrite V. apply Rle_trans with (B (-453)); [apply bpow_le; lia|]. rewrite <- (rnd_id (B (-453))) by (apply fmt_pow; lia). apply rnd_mono.
  change (-453)%Z with (-52 + - (401))%Z. rewrite bpow_plus, bpow_opp. unfold Rdiv. apply Rmult_le_compat; try lra.
  - apply Rlt_le, Rinv_0_lt_compat, bpow_gt_0.
  - apply Rinv_le_contravar; lra.
Qed.
Lemma ratio_mono s s' t t' : positive_sum s -> positive_sum s' -> positive_sum t -> positive_sum t' -> fval s <= fval s' -> fval t' <= fval t ->
  fval (fdiv s t) <= fval (fdiv s' t').
Proof.
  intros A A' C C' L M. rewrite (proj2 (ratio_ok s t A C)), (proj2 (ratio_ok s' t' A' C')). apply rnd_mono.
  destruct A as [_ A], C' as [_ C']. pose proof (bpow_gt_0 radix2 (-52)). unfold Rdiv. apply Rmult_le_compat; try lra.
  - apply Rlt_le, Rinv_0_lt_compat. lra.
  - apply Rinv_le_contravar; lra.
Qed.
Lemma ordinary_ratio g : ordinary g -> ratio_like g.
Proof. intros [F H]. split; auto. split; [apply Rle_trans with (B (-100)); [apply bpow_le; lia|lra]|apply Rle_trans with (B 100); [lra|apply bpow_le; lia]]. Qed.
Lemma roi_pos np_sum nx ny r x y ns m a : sums_up np_sum -> photon_counts a -> (ns <= 2 ^ 26)%Z -> circle_f nx ny r x y ns false = Ok m ->
  positive_sum (roi_sum_f np_sum m a).
Proof.
  intros Hs Ph Hn E. destruct (roi_range np_sum m Hs) with (a := a) as [F V]; auto; [intros i j; apply (mask_ok _ _ _ _ _ _ _ Hn E)|].
  split; auto. split; [lra|]. apply Rle_trans with (B 400); [lra|apply bpow_le; lia].
Qed.
Lemma roi_mono' np_sum nx ny r x y ns m a a' : sums_up np_sum -> by_plan np_sum -> photon_counts a -> photon_counts a' -> nr a = nr a' -> nc a = nc a' ->
  (ns <= 2 ^ 26)%Z -> circle_f nx ny r x y ns false = Ok m -> brighter_on m a a' -> fval (roi_sum_f np_sum m a) <= fval (roi_sum_f np_sum m a').
Proof. intros Hs Hp Ph Ph' Er Ec Hn E Br. apply roi_mono; auto. intros i j. apply (mask_ok _ _ _ _ _ _ _ Hn E). Qed.
Lemma circle_runs nx ny r x y ns : (1 < nx)%Z -> (0 < ny)%Z -> fle r fzero = false -> (0 < ns)%Z -> exists m, circle_f nx ny r x y ns false = Ok m.
Proof.
  intros Hx Hy Hr Hn. unfold circle_f. rewrite Hr.
  assert (E1 : (0 <? nx)%Z = true) by (apply Z.ltb_lt; lia). assert (E2 : (0 <? ny)%Z = true) by (apply Z.ltb_lt; lia).
  assert (E3 : (0 <? ns)%Z = true) by (apply Z.ltb_lt; lia). assert (E4 : (1 <? nx)%Z = true) by (apply Z.ltb_lt; lia).
  rewrite E1, E2, E3, E4. cbn [negb guard bind]. eexists. reflexivity.
Qed.

(** ** One axis *)
Section Spots.
Variables (np_sum : list f64 -> f64) (fcos fsin : f64 -> f64) (rot xo yo : f64) (t : spots_tuning) (g : f64).
Hypothesis Hs : sums_up np_sum.
Hypothesis Ht : spots_parameters t.
Hypothesis Hg : ordinary g.
Definition spot_G : R -> R := if (f_power t =? 1)%Z then lin_G (fval (f_c1 t)) else quad_G (fval (f_c1 t)) (fval (f_c2 t)).
Lemma spot_estimator : estimator (estimate t) spot_G.
Proof.
  destruct Ht as (_ & _ & _ & _ & H1 & H2 & _). unfold estimator, estimate, spot_G.
  destruct (f_power t =? 1)%Z; [apply linear_estimator|apply quad_estimator]; auto.
Qed.
Definition sign_of : R := if (f_inside t =? 0)%Z then -1 else 1.
Lemma spots_value a : photon_counts a -> exists mp mm out,
  region_at fcos fsin (nc a) (nr a) (f_radius t) xo yo (f_sep t) (in_radians rot) (f_ns t) mp /\
  region_at fcos fsin (nc a) (nr a) (f_radius t) xo yo (f_sep t) (fadd (in_radians rot) fpi) (f_ns t) mm /\
  calc_offset_from_spots_f np_sum fcos fsin a rot xo yo t g = Ok out /\ is_finite out = true /\
  ratio_like (fdiv (roi_sum_f np_sum mp a) (roi_sum_f np_sum mm a)) /\
  fval out = sign_of * clip (fval (f_max t)) (rnd64 (fold_at spot_G (fval (fdiv (roi_sum_f np_sum mp a) (roi_sum_f np_sum mm a))) - fold_at spot_G (fval g))).
Proof.
  intros Ph. pose proof Ht as (T1 & T2 & T3 & T4 & T5 & T6 & T7 & T8). pose proof Ph as (Hr & Hc & _).
  destruct (ordinary_pos _ T1) as (_ & _ & P1 & _). destruct (ordinary_pos _ T2) as (_ & _ & P2 & _). destruct (ordinary_pos _ T4) as (_ & Pm & P4 & _).
  destruct (ordinary_pos _ T5) as (_ & _ & P5 & _). destruct (ordinary_pos _ T6) as (_ & _ & P6 & _). destruct (ordinary_pos _ Hg) as (_ & _ & P7 & _).
  unfold calc_offset_from_spots_f, positive_f. rewrite P1, P2, P4, P5, P6, P7. cbn [negb guard bind].
  assert (E3 : (0 <? f_ns t)%Z = true) by (apply Z.ltb_lt; lia). rewrite E3.
  assert (E7 : (0 <? f_power t)%Z = true /\ ((f_power t =? 1) || (f_power t =? 2))%Z = true) by (destruct T7 as [-> | ->]; auto). destruct E7 as [E7 E7']. rewrite E7, E7'.
  assert (E8 : ((f_inside t =? 0) || (f_inside t =? 1))%Z = true) by (destruct T8 as [-> | ->]; auto). rewrite E8. cbn [guard bind]. cbv zeta.
  fold (in_radians rot).
  destruct (circle_runs (nc a) (nr a) (f_radius t) (fadd (fmul (fcos (in_radians rot)) (f_sep t)) xo) (fadd (fmul (fsin (in_radians rot)) (f_sep t)) yo) (f_ns t) Hc Hr P2 ltac:(lia)) as [mp Ep].
  destruct (circle_runs (nc a) (nr a) (f_radius t) (fadd (fmul (fcos (fadd (in_radians rot) fpi)) (f_sep t)) xo) (fadd (fmul (fsin (fadd (in_radians rot) fpi)) (f_sep t)) yo) (f_ns t) Hc Hr P2 ltac:(lia)) as [mm Em].
  rewrite Ep, Em. cbn [bind]. change (if (f_power t =? 1)%Z then offset_linear_f (f_c1 t) ?r else offset_quadratic_f (f_c1 t) (f_c2 t) ?r) with (estimate t r).
  destruct (ratio_ok (roi_sum_f np_sum mp a) (roi_sum_f np_sum mm a)) as [Rl _]; try (eapply roi_pos; eauto; lia).
  set (r := fdiv _ _) in *. destruct spot_estimator as [_ Es]. destruct (Es r Rl) as (off & Eo & Wo & Vo). destruct (Es g (ordinary_ratio g Hg)) as (tg & Eg & Wg & Vg).
  fold (estimate t r). fold (estimate t g). rewrite Eo, Eg. cbn [bind].
  destruct (fsub_within 800 off tg ltac:(lia) Wo Wg) as [Vd Wd]. destruct (bound_val (fsub off tg) (f_max t) (proj1 Wd) T4) as (v & Ev & Fv & Vv). rewrite Ev. cbn [bind].
  exists mp, mm, (if (f_inside t =? 0)%Z then fmul v (fofZ (-1)) else v). split; [exact Ep|]. split; [exact Em|]. split; [reflexivity|].
  rewrite Vd, Vo, Vg in Vv. fold r. unfold sign_of. destruct (f_inside t =? 0)%Z.
  - rewrite neg_one, fin_opp, fval_opp, Vv. split; auto. split; auto. ring.
  - rewrite Vv. split; auto. split; auto. ring.
Qed.
Lemma spots_total a : photon_counts a -> exists out, calc_offset_from_spots_f np_sum fcos fsin a rot xo yo t g = Ok out /\ is_finite out = true /\
  - fval (f_max t) <= fval out <= fval (f_max t).
Proof.
  intros Ph. destruct (spots_value a Ph) as (mp & mm & out & _ & _ & E & F & _ & V). exists out. split; auto. split; auto. rewrite V.
  destruct Ht as (_ & _ & _ & T4 & _). destruct (ordinary_pos _ T4) as (_ & Pm & _ & _).
  pose proof (clip_range (fval (f_max t)) (rnd64 (fold_at spot_G (fval (fdiv (roi_sum_f np_sum mp a) (roi_sum_f np_sum mm a))) - fold_at spot_G (fval g))) Pm).
  unfold sign_of. destruct (f_inside t =? 0)%Z; lra.
Qed.
Lemma clip_signs r : 0 < r -> let v := clip (fval (f_max t)) (rnd64 (fold_at spot_G r - fold_at spot_G (fval g))) in
  (r <= fval g -> v <= 0) /\ (fval g <= r -> 0 <= v).
Proof.
  intros Pr v. destruct Ht as (_ & _ & _ & T4 & _). destruct (ordinary_pos _ T4) as (_ & Pm & _ & _). destruct (ordinary_pos _ Hg) as (_ & Pg & _ & _).
  destruct spot_estimator as [Gd _]. unfold v. split; intros L; rewrite <- (clip_zero (fval (f_max t)) Pm); apply clip_mono; auto; rewrite <- rnd_0; apply rnd_mono.
  - pose proof (fold_mono spot_G r (fval g) Gd Pr L). lra.
  - pose proof (fold_mono spot_G (fval g) r Gd Pg L). lra.
Qed.
Lemma floor_light m a : is_finite (light np_sum m a) = true -> 0 < fval (light np_sum m a) -> roi_sum_f np_sum m a = light np_sum m a.
Proof.
  intros F P. unfold roi_sum_f. fold (light np_sum m a). rewrite fle_val by auto. rewrite Rle_bool_false by exact P. reflexivity.
Qed.
Lemma spots_signs a mp mm out : photon_counts a ->
  region_at fcos fsin (nc a) (nr a) (f_radius t) xo yo (f_sep t) (in_radians rot) (f_ns t) mp ->
  region_at fcos fsin (nc a) (nr a) (f_radius t) xo yo (f_sep t) (fadd (in_radians rot) fpi) (f_ns t) mm ->
  fval (light np_sum mp a) <> 0 -> fval (light np_sum mm a) <> 0 ->
  calc_offset_from_spots_f np_sum fcos fsin a rot xo yo t g = Ok out ->
  let r := fval (fdiv (light np_sum mp a) (light np_sum mm a)) in
  (f_inside t = 1%Z -> (fval g <= r -> 0 <= fval out) /\ (r <= fval g -> fval out <= 0)) /\
  (f_inside t = 0%Z -> (fval g <= r -> fval out <= 0) /\ (r <= fval g -> 0 <= fval out)).
Proof.
  intros Ph Rp Rm Np Nm E. destruct (spots_value a Ph) as (mp' & mm' & out' & Rp' & Rm' & E' & _ & Rl & V).
  unfold region_at in *. rewrite Rp in Rp'. rewrite Rm in Rm'. apply ok_eq in Rp', Rm'. subst mp' mm'. rewrite E in E'. apply ok_eq in E'. subst out'.
  assert (Hn : (f_ns t <= 2 ^ 26)%Z) by apply Ht.
  destruct (light_range np_sum mp Hs (proj2 (proj2 (proj2 (proj2 (mask_ok _ _ _ _ _ _ _ Hn Rp))))) a Ph) as [Fp Vp].
  destruct (light_range np_sum mm Hs (proj2 (proj2 (proj2 (proj2 (mask_ok _ _ _ _ _ _ _ Hn Rm))))) a Ph) as [Fm Vm].
  pose proof (bpow_gt_0 radix2 (-52)). pose proof (bpow_gt_0 radix2 (-460)).
  rewrite (floor_light mp a), (floor_light mm a) in V, Rl by (auto; lra). cbv zeta. destruct (clip_signs (fval (fdiv (light np_sum mp a) (light np_sum mm a)))) as [S1 S2]; [destruct Rl; lra|].
  unfold sign_of in V. split; intros Ei; rewrite Ei in V; cbn [Z.eqb] in V; rewrite V; split; intros L; try (specialize (S1 L)); try (specialize (S2 L)); lra.
Qed.
Hypothesis Hp : by_plan np_sum.
Lemma spots_mono a a' mp mm out out' : photon_counts a -> photon_counts a' -> nr a = nr a' -> nc a = nc a' ->
  region_at fcos fsin (nc a) (nr a) (f_radius t) xo yo (f_sep t) (in_radians rot) (f_ns t) mp ->
  region_at fcos fsin (nc a) (nr a) (f_radius t) xo yo (f_sep t) (fadd (in_radians rot) fpi) (f_ns t) mm ->
  brighter_on mp a a' -> brighter_on mm a' a ->
  calc_offset_from_spots_f np_sum fcos fsin a rot xo yo t g = Ok out -> calc_offset_from_spots_f np_sum fcos fsin a' rot xo yo t g = Ok out' ->
  (f_inside t = 1%Z -> fval out <= fval out') /\ (f_inside t = 0%Z -> fval out' <= fval out).
Proof.
  intros Ph Ph' Er Ec Rp Rm Bp Bm E E'.
  destruct (spots_value a Ph) as (mp1 & mm1 & out1 & Rp1 & Rm1 & E1 & _ & Rl & V).
  destruct (spots_value a' Ph') as (mp2 & mm2 & out2 & Rp2 & Rm2 & E2 & _ & Rl' & V'). rewrite <- Er, <- Ec in Rp2, Rm2.
  unfold region_at in *. rewrite Rp in Rp1, Rp2. rewrite Rm in Rm1, Rm2. apply ok_eq in Rp1, Rp2, Rm1, Rm2. subst mp1 mp2 mm1 mm2.
  rewrite E in E1. rewrite E' in E2. apply ok_eq in E1, E2. subst out1 out2. assert (Hn : (f_ns t <= 2 ^ 26)%Z) by apply Ht.
  assert (L : fval (fdiv (roi_sum_f np_sum mp a) (roi_sum_f np_sum mm a)) <= fval (fdiv (roi_sum_f np_sum mp a') (roi_sum_f np_sum mm a'))).
  { apply ratio_mono; try (eapply roi_pos; eauto; fail); [eapply roi_mono'; eauto|eapply roi_mono'; eauto]. }
  destruct spot_estimator as [Gd _]. destruct Ht as (_ & _ & _ & T4 & _). destruct (ordinary_pos _ T4) as (_ & Pm & _ & _).
  pose proof (bpow_gt_0 radix2 (-460)). destruct Rl as [_ Rl].
  assert (Pr : 0 < fval (fdiv (roi_sum_f np_sum mp a) (roi_sum_f np_sum mm a))) by lra. pose proof (fold_mono spot_G _ _ Gd Pr L) as Fm. set (x := fold_at spot_G (fval (fdiv (roi_sum_f np_sum mp a) _))) in *.
  set (y := fold_at spot_G (fval (fdiv (roi_sum_f np_sum mp a') _))) in *.
  assert (Cl : clip (fval (f_max t)) (rnd64 (x - fold_at spot_G (fval g))) <= clip (fval (f_max t)) (rnd64 (y - fold_at spot_G (fval g)))) by (apply clip_mono; auto; apply rnd_mono; lra).
  unfold sign_of in *. split; intros Ei; rewrite Ei in V, V'; cbn [Z.eqb] in V, V'; lra.
Qed.
End Spots.

(** ** Two axes *)
Lemma sum_pos2 s s' : is_finite s = true -> is_finite s' = true -> B (-52) <= fval s <= B 400 -> B (-52) <= fval s' <= B 400 ->
  positive_sum (fadd s s') /\ fval (fadd s s') = rnd64 (fval s + fval s').
Proof.
  intros F F' H H'. pose proof (bpow_gt_0 radix2 (-52)) as P. destruct (fadd_within 400 s s' ltac:(lia)) as [V W]; [split; auto; rewrite Rabs_right; lra|split; auto; rewrite Rabs_right; lra|].
  split; auto. split; [apply W|]. destruct W as [_ W]. apply Rabs_le_inv in W. change (400 + 1)%Z with 401%Z in W. split; [|lra].
  rewrite V. rewrite <- (rnd_id (B (-52))) by (apply fmt_pow; lia). apply rnd_mono. lra.
Qed.
Section Bowtie.
Variables (np_sum : list f64 -> f64) (fcos fsin : f64 -> f64) (xo yo : f64) (t : bowtie_tuning_f).
Hypothesis Hs : sums_up np_sum.
Hypothesis Ht : bowtie_parameters t.
Definition GX : R -> R := quad_G (fval (g_c1x t)) (fval (g_c2x t)).
Definition GY : R -> R := quad_G (fval (g_c1y t)) (fval (g_c2y t)).
Lemma axis_value c1 c2 r tg m : ordinary c1 -> ordinary c2 -> ratio_like r -> ordinary tg -> ordinary m ->
  exists x0 x1 x, offset_quadratic_f c1 c2 r = Ok x0 /\ offset_quadratic_f c1 c2 tg = Ok x1 /\ bound_value_f (fsub (fopp x0) (fopp x1)) m = Ok x /\
   is_finite x = true /\ fval x = clip (fval m) (rnd64 (fold_at (quad_G (fval c1) (fval c2)) (fval tg) - fold_at (quad_G (fval c1) (fval c2)) (fval r))).
Proof.
  intros H1 H2 Hr Htg Hm. destruct (quad_estimator c1 c2 H1 H2) as [_ Es]. destruct (Es r Hr) as (x0 & E0 & W0 & V0).
  destruct (Es tg (ordinary_ratio tg Htg)) as (x1 & E1 & W1 & V1).
  assert (Wo : forall x, within 800 x -> within 800 (fopp x)) by (intros x [F W]; split; [rewrite fin_opp; auto|rewrite fval_opp, Rabs_Ropp; auto]).
  destruct (fsub_within 800 (fopp x0) (fopp x1) ltac:(lia) (Wo _ W0) (Wo _ W1)) as [Vd Wd].
  destruct (bound_val _ m (proj1 Wd) Hm) as (x & E & F & V). exists x0, x1, x. repeat (split; auto). rewrite V, Vd, !fval_opp, V0, V1. f_equal. f_equal. ring.
Qed.
Lemma bowtie_value a : photon_counts a -> exists q1 q2 q3 q4 ox oy,
   let rot := in_radians (g_rot t) in let clk := in_radians (g_extra t) in
   bowtie_region fcos fsin a xo yo t (g_sep t) (fadd rot clk) q1 /\
   bowtie_region fcos fsin a xo yo t (fopp (g_sep t)) (fadd (fopp rot) clk) q2 /\
   bowtie_region fcos fsin a xo yo t (fopp (g_sep t)) (fadd rot clk) q3 /\ bowtie_region fcos fsin a xo yo t (g_sep t) (fadd (fopp rot) clk) q4 /\
   calc_bowtie_offsets_f np_sum fcos fsin a xo yo t = Ok (ox, oy) /\ is_finite ox = true /\ is_finite oy = true /\
   let s m := roi_sum_f np_sum m a in
   fval ox = clip (fval (g_max t)) (rnd64 (fold_at GX (fval (g_tx t)) - fold_at GX (fval (fdiv (fadd (s q1) (s q4)) (fadd (s q2) (s q3)))))) /\
   fval oy = clip (fval (g_max t)) (rnd64 (fold_at GY (fval (g_ty t)) - fold_at GY (fval (fdiv (fadd (s q1) (s q2)) (fadd (s q3) (s q4)))))).
Proof.
  intros Ph. pose proof Ht as (T1 & T2 & T3 & T4 & T5 & T6 & T7 & T8 & T9 & T10). pose proof Ph as (Hr & Hc & _).
  destruct (ordinary_pos _ T1) as (_ & _ & P1 & _). destruct (ordinary_pos _ T2) as (_ & _ & P2 & _). destruct (ordinary_pos _ T4) as (_ & _ & P4 & _).
  destruct (ordinary_pos _ T5) as (_ & _ & P5 & _). destruct (ordinary_pos _ T6) as (_ & _ & P6 & _). destruct (ordinary_pos _ T7) as (_ & _ & P7 & _). destruct (ordinary_pos _ T8) as (_ & _ & P8 & _).
  unfold calc_bowtie_offsets_f, positive_f. rewrite P1, P2, P4, P5, P6, P7, P8. cbn [negb guard bind].
  assert (E3 : (0 <? g_ns t)%Z = true) by (apply Z.ltb_lt; lia). rewrite E3. cbn [guard bind]. cbv zeta.
  fold (in_radians (g_rot t)). fold (in_radians (g_extra t)). set (rot := in_radians (g_rot t)). set (clk := in_radians (g_extra t)).
  assert (K : forall sep ang, exists m, bowtie_region fcos fsin a xo yo t sep ang m) by (intros; apply circle_runs; auto; lia).
  destruct (K (g_sep t) (fadd rot clk)) as [q1 Q1]. destruct (K (fopp (g_sep t)) (fadd (fopp rot) clk)) as [q2 Q2].
  destruct (K (fopp (g_sep t)) (fadd rot clk)) as [q3 Q3]. destruct (K (g_sep t) (fadd (fopp rot) clk)) as [q4 Q4].
  pose proof Q1 as Q1'. pose proof Q2 as Q2'. pose proof Q3 as Q3'. pose proof Q4 as Q4'. unfold bowtie_region in Q1', Q2', Q3', Q4'.
  rewrite Q1', Q2', Q3', Q4'. cbn [bind].
  assert (Rg : forall sep ang m, bowtie_region fcos fsin a xo yo t sep ang m -> is_finite (roi_sum_f np_sum m a) = true /\ B (-52) <= fval (roi_sum_f np_sum m a) <= B 400).
  { intros sep ang m E. apply roi_range; auto. intros i j. apply (mask_ok _ _ _ _ _ _ _ (proj2 T3) E). }
  assert (Ps : forall sep ang m sep' ang' m', bowtie_region fcos fsin a xo yo t sep ang m -> bowtie_region fcos fsin a xo yo t sep' ang' m' ->
     positive_sum (fadd (roi_sum_f np_sum m a) (roi_sum_f np_sum m' a))) by (intros; apply sum_pos2; eapply Rg; eauto).
  destruct (ratio_ok _ _ (Ps _ _ _ _ _ _ Q1 Q4) (Ps _ _ _ _ _ _ Q2 Q3)) as [Rx _]. destruct (ratio_ok _ _ (Ps _ _ _ _ _ _ Q1 Q2) (Ps _ _ _ _ _ _ Q3 Q4)) as [Ry _].
  destruct (axis_value (g_c1x t) (g_c2x t) _ (g_tx t) (g_max t) T5 T6 Rx T9 T4) as (x0 & x1 & x & X0 & X1 & X & Fx & Vx).
  destruct (axis_value (g_c1y t) (g_c2y t) _ (g_ty t) (g_max t) T7 T8 Ry T10 T4) as (y0 & y1 & y & Y0 & Y1 & Y & Fy & Vy).
  rewrite X0, X1, Y0, Y1. cbn [bind]. rewrite X, Y. cbn [bind]. exists q1, q2, q3, q4, x, y. auto 12.
Qed.
Lemma bowtie_total a : photon_counts a -> exists ox oy, calc_bowtie_offsets_f np_sum fcos fsin a xo yo t = Ok (ox, oy) /\
  is_finite ox = true /\ is_finite oy = true /\ - fval (g_max t) <= fval ox <= fval (g_max t) /\ - fval (g_max t) <= fval oy <= fval (g_max t).
Proof.
  intros Ph. destruct (bowtie_value a Ph) as (q1 & q2 & q3 & q4 & ox & oy & _ & _ & _ & _ & E & Fx & Fy & Vx & Vy). exists ox, oy.
  assert (T4 : ordinary (g_max t)) by apply Ht. destruct (ordinary_pos _ T4) as (_ & Pm & _ & _).
  split; auto. split; auto. split; auto. rewrite Vx, Vy. split; apply clip_range; auto.
Qed.
Hypothesis Hp : by_plan np_sum.
Lemma bowtie_mono a a' q1 q2 q3 q4 ox oy ox' oy' : photon_counts a -> photon_counts a' -> nr a = nr a' -> nc a = nc a' ->
   let rot := in_radians (g_rot t) in let clk := in_radians (g_extra t) in
   bowtie_region fcos fsin a xo yo t (g_sep t) (fadd rot clk) q1 ->
   bowtie_region fcos fsin a xo yo t (fopp (g_sep t)) (fadd (fopp rot) clk) q2 ->
   bowtie_region fcos fsin a xo yo t (fopp (g_sep t)) (fadd rot clk) q3 -> bowtie_region fcos fsin a xo yo t (g_sep t) (fadd (fopp rot) clk) q4 ->
   calc_bowtie_offsets_f np_sum fcos fsin a xo yo t = Ok (ox, oy) -> calc_bowtie_offsets_f np_sum fcos fsin a' xo yo t = Ok (ox', oy') ->
   (brighter_on q1 a a' -> brighter_on q4 a a' -> brighter_on q2 a' a -> brighter_on q3 a' a -> fval ox' <= fval ox) /\
   (brighter_on q1 a a' -> brighter_on q2 a a' -> brighter_on q3 a' a -> brighter_on q4 a' a -> fval oy' <= fval oy).
Proof.
  intros Ph Ph' Er Ec rot clk Q1 Q2 Q3 Q4 E E'.
  destruct (bowtie_value a Ph) as (p1 & p2 & p3 & p4 & x & y & R1 & R2 & R3 & R4 & EE & _ & _ & Vx & Vy).
  destruct (bowtie_value a' Ph') as (p1' & p2' & p3' & p4' & x' & y' & R1' & R2' & R3' & R4' & EE' & _ & _ & Vx' & Vy').
  rewrite E in EE. rewrite E' in EE'. apply ok_eq in EE, EE'. injection EE as <- <-. injection EE' as <- <-.
  unfold bowtie_region in *. fold rot in R1, R2, R3, R4, R1', R2', R3', R4'. fold clk in R1, R2, R3, R4, R1', R2', R3', R4'. rewrite <- Er, <- Ec in R1', R2', R3', R4'.
  rewrite Q1 in R1, R1'. rewrite Q2 in R2, R2'. rewrite Q3 in R3, R3'. rewrite Q4 in R4, R4'. apply ok_eq in R1, R2, R3, R4, R1', R2', R3', R4'.
  subst p1 p2 p3 p4 p1' p2' p3' p4'. pose proof Ht as (T1 & T2 & T3 & T4 & T5 & T6 & T7 & T8 & T9 & T10). destruct (ordinary_pos _ T4) as (_ & Pm & _ & _).
  assert (Rg : forall m b, photon_counts b -> (exists u v, circle_f (nc a) (nr a) (g_radius t) u v (g_ns t) false = Ok m) ->
     is_finite (roi_sum_f np_sum m b) = true /\ B (-52) <= fval (roi_sum_f np_sum m b) <= B 400).
  { intros m b Pb (u & v & Em). apply roi_range; auto. intros i j. apply (mask_ok _ _ _ _ _ _ _ (proj2 T3) Em). }
  assert (Mo : forall m b b', photon_counts b -> photon_counts b' -> nr b = nr b' -> nc b = nc b' -> (exists u v, circle_f (nc a) (nr a) (g_radius t) u v (g_ns t) false = Ok m) ->
     brighter_on m b b' -> fval (roi_sum_f np_sum m b) <= fval (roi_sum_f np_sum m b')).
  { intros m b b' Pb Pb' Eb Eb' (u & v & Em) Br. apply roi_mono; auto. intros i j. apply (mask_ok _ _ _ _ _ _ _ (proj2 T3) Em). }
  assert (Pr : forall m m' b, photon_counts b -> (exists u v, circle_f (nc a) (nr a) (g_radius t) u v (g_ns t) false = Ok m) ->
     (exists u v, circle_f (nc a) (nr a) (g_radius t) u v (g_ns t) false = Ok m') -> let s := fadd (roi_sum_f np_sum m b) (roi_sum_f np_sum m' b) in
     positive_sum s /\ fval s = rnd64 (fval (roi_sum_f np_sum m b) + fval (roi_sum_f np_sum m' b))).
  { intros m m' b Pb Em Em'. destruct (Rg m b Pb Em), (Rg m' b Pb Em'). apply sum_pos2; auto. }
  assert (C1 : exists u v, circle_f (nc a) (nr a) (g_radius t) u v (g_ns t) false = Ok q1) by eauto.
  assert (C2 : exists u v, circle_f (nc a) (nr a) (g_radius t) u v (g_ns t) false = Ok q2) by eauto.
  assert (C3 : exists u v, circle_f (nc a) (nr a) (g_radius t) u v (g_ns t) false = Ok q3) by eauto.
  assert (C4 : exists u v, circle_f (nc a) (nr a) (g_radius t) u v (g_ns t) false = Ok q4) by eauto.
  clear Q1 Q2 Q3 Q4. cbv zeta in Vx, Vy, Vx', Vy'.
  assert (Key : forall c1 c2 tg ma mb mc md v v', ordinary c1 -> ordinary c2 ->
     (exists u v, circle_f (nc a) (nr a) (g_radius t) u v (g_ns t) false = Ok ma) -> (exists u v, circle_f (nc a) (nr a) (g_radius t) u v (g_ns t) false = Ok mb) ->
     (exists u v, circle_f (nc a) (nr a) (g_radius t) u v (g_ns t) false = Ok mc) -> (exists u v, circle_f (nc a) (nr a) (g_radius t) u v (g_ns t) false = Ok md) ->
     brighter_on ma a a' -> brighter_on mb a a' -> brighter_on mc a' a -> brighter_on md a' a ->
     let r b := fdiv (fadd (roi_sum_f np_sum ma b) (roi_sum_f np_sum mb b)) (fadd (roi_sum_f np_sum mc b) (roi_sum_f np_sum md b)) in
     let G := quad_G (fval c1) (fval c2) in
     v = clip (fval (g_max t)) (rnd64 (fold_at G tg - fold_at G (fval (r a)))) -> v' = clip (fval (g_max t)) (rnd64 (fold_at G tg - fold_at G (fval (r a')))) -> v' <= v).
  { intros c1 c2 tg ma mb mc md v v' O1 O2 Ca Cb Cc Cd Ba Bb Bc Bd r G -> ->. apply clip_mono; auto. apply rnd_mono.
    destruct (quad_estimator c1 c2 O1 O2) as [Gd _]. fold G in Gd.
    destruct (Pr ma mb a Ph Ca Cb) as [P1 V1]. destruct (Pr mc md a Ph Cc Cd) as [P2 V2]. destruct (Pr ma mb a' Ph' Ca Cb) as [P3 V3]. destruct (Pr mc md a' Ph' Cc Cd) as [P4 V4].
    assert (L : fval (r a) <= fval (r a')).
    { apply ratio_mono; auto; [rewrite V1, V3|rewrite V2, V4]; apply rnd_mono; apply Rplus_le_compat; apply Mo; auto. }
    pose proof (fold_mono G (fval (r a)) (fval (r a')) Gd) as FM. destruct (ratio_ok _ _ P1 P2) as [[_ Rl] _]. pose proof (bpow_gt_0 radix2 (-460)).
    fold (r a) in Rl. specialize (FM ltac:(lra) L). lra. }
  split; intros B1 B2 B3 B4.
  - apply (Key (g_c1x t) (g_c2x t) (fval (g_tx t)) q1 q4 q2 q3 (fval ox) (fval ox')); auto.
  - apply (Key (g_c1y t) (g_c2y t) (fval (g_ty t)) q1 q2 q3 q4 (fval oy) (fval oy')); auto.
Qed.
End Bowtie.
