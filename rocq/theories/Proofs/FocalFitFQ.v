(** The focal-mask measurements in double precision: bad pixels, and the largest step. *)
From Coq Require Import ZArith Reals Bool List Lia Lra.
From Flocq Require Import Core BinarySingleNaN.
From Verif.Base Require Import Py Arr Sums F64.
From Verif.Model Require Import ShapesF FocalFitF.
From Verif.Spec Require Import BrightFSpec FocalFitFSpec.
From Verif.Proofs Require Import F64P F64N BrightFP FocalFitFP.
Import ListNotations.
Local Open Scope R_scope.
Local Notation B := (bpow radix2).

Lemma bind_ok' {A C} (m : res A) (f : A -> res C) v : bind m f = Ok v -> exists a, m = Ok a /\ f a = Ok v.
Proof. destruct m; cbn; [eauto|discriminate]. Qed.
Lemma pos_ok {A} v e (m : res A) out : bind (positive_f v e) (fun _ => m) = Ok out -> fle v fzero = false /\ m = Ok out.
Proof. unfold positive_f. destruct (fle v fzero); cbn; [discriminate|auto]. Qed.
Lemma ok_eq {A} (x y : A) : Ok x = Ok y -> x = y. Proof. intros H. injection H; auto. Qed.

(** ** What a result consists of *)
Definition estimate (t : spots_tuning) (r : f64) : res f64 :=
  if (f_power t =? 1)%Z then offset_linear_f (f_c1 t) r else offset_quadratic_f (f_c1 t) (f_c2 t) r.
Lemma spots_parts np_sum fcos fsin a rot xo yo t g out : calc_offset_from_spots_f np_sum fcos fsin a rot xo yo t g = Ok out ->
  exists mp mm off tgt v, region_at fcos fsin (nc a) (nr a) (f_radius t) xo yo (f_sep t) (in_radians rot) (f_ns t) mp /\
   region_at fcos fsin (nc a) (nr a) (f_radius t) xo yo (f_sep t) (fadd (in_radians rot) fpi) (f_ns t) mm /\
   estimate t (fdiv (roi_sum_f np_sum mp a) (roi_sum_f np_sum mm a)) = Ok off /\ estimate t g = Ok tgt /\
   bound_value_f (fsub off tgt) (f_max t) = Ok v /\ out = (if (f_inside t =? 0)%Z then fmul v (fofZ (-1)) else v) /\
   fle (f_max t) fzero = false.
Proof.
  intros H. unfold calc_offset_from_spots_f in H. do 3 (apply pos_ok in H as [? H]). apply guard_ok in H as [_ H].
  apply pos_ok in H as [Hm H]. do 2 (apply pos_ok in H as [? H]). do 3 (apply guard_ok in H as [_ H]). cbv zeta in H.
  apply bind_ok' in H as (mp & E1 & H). apply bind_ok' in H as (mm & E2 & H). apply bind_ok' in H as (off & E3 & H).
  apply bind_ok' in H as (tgt & E4 & H). apply bind_ok' in H as (v & E5 & H). apply ok_eq in H.
  exists mp, mm, off, tgt, v. unfold region_at, in_radians. auto 10.
Qed.
Lemma bowtie_parts np_sum fcos fsin a xo yo t ox oy : calc_bowtie_offsets_f np_sum fcos fsin a xo yo t = Ok (ox, oy) ->
  let rot := in_radians (g_rot t) in let clk := in_radians (g_extra t) in
  exists q1 q2 q3 q4 x0 x1 y0 y1, bowtie_region fcos fsin a xo yo t (g_sep t) (fadd rot clk) q1 /\
   bowtie_region fcos fsin a xo yo t (fopp (g_sep t)) (fadd (fopp rot) clk) q2 /\
   bowtie_region fcos fsin a xo yo t (fopp (g_sep t)) (fadd rot clk) q3 /\ bowtie_region fcos fsin a xo yo t (g_sep t) (fadd (fopp rot) clk) q4 /\
   let s m := roi_sum_f np_sum m a in
   offset_quadratic_f (g_c1x t) (g_c2x t) (fdiv (fadd (s q1) (s q4)) (fadd (s q2) (s q3))) = Ok x0 /\
   offset_quadratic_f (g_c1x t) (g_c2x t) (g_tx t) = Ok x1 /\
   offset_quadratic_f (g_c1y t) (g_c2y t) (fdiv (fadd (s q1) (s q2)) (fadd (s q3) (s q4))) = Ok y0 /\
   offset_quadratic_f (g_c1y t) (g_c2y t) (g_ty t) = Ok y1 /\
   bound_value_f (fsub (fopp x0) (fopp x1)) (g_max t) = Ok ox /\ bound_value_f (fsub (fopp y0) (fopp y1)) (g_max t) = Ok oy /\
   fle (g_max t) fzero = false.
Proof.
  intros H. unfold calc_bowtie_offsets_f in H. do 2 (apply pos_ok in H as [? H]). apply guard_ok in H as [_ H].
  apply pos_ok in H as [Hm H]. do 4 (apply pos_ok in H as [? H]). cbv zeta in H |- *.
  apply bind_ok' in H as (q1 & E1 & H). apply bind_ok' in H as (q2 & E2 & H). apply bind_ok' in H as (q3 & E3 & H).
  apply bind_ok' in H as (q4 & E4 & H). apply bind_ok' in H as (x0 & X0 & H). apply bind_ok' in H as (x1 & X1 & H).
  apply bind_ok' in H as (y0 & Y0 & H). apply bind_ok' in H as (y1 & Y1 & H). apply bind_ok' in H as (x & X & H).
  apply bind_ok' in H as (y & Y & H). apply ok_eq in H. injection H as <- <-.
  exists q1, q2, q3, q4, x0, x1, y0, y1. unfold bowtie_region, in_radians. auto 20.
Qed.

(** ** Bad pixels *)
Lemma roi_high np_sum nx ny r x y ns m a : sums_up np_sum -> bad_pixel a -> (ns <= 2 ^ 26)%Z -> circle_f nx ny r x y ns false = Ok m ->
  high (roi_sum_f np_sum m a).
Proof.
  intros Hs (i & j & I & Hp) Hn E. unfold roi_sum_f. fold (light np_sum m a). apply floor_high. destruct Hp as [N|N].
  - left. apply light_nan with (i := i) (j := j); auto.
  - apply light_high with (i := i) (j := j); auto. apply (mask_ok _ _ _ _ _ _ _ Hn E).
Qed.
Lemma spots_bad np_sum fcos fsin a rot xo yo t g out : sums_up np_sum -> bad_pixel a -> (f_ns t <= 2 ^ 26)%Z ->
  calc_offset_from_spots_f np_sum fcos fsin a rot xo yo t g = Ok out -> out = fnan.
Proof.
  intros Hs Hb Hn H. destruct (spots_parts _ _ _ _ _ _ _ _ _ _ H) as (mp & mm & off & tgt & v & E1 & E2 & E3 & E4 & E5 & -> & _).
  rewrite high_ratio in E3 by (eapply roi_high; eauto). assert (off = fnan).
  { unfold estimate in E3. destruct (f_power t =? 1)%Z; [rewrite lin_nan_ratio in E3|rewrite quad_nan_ratio in E3]; injection E3; auto. }
  subst off. rewrite fsub_nan_l in E5. apply bound_nan in E5 as ->. destruct (f_inside t =? 0)%Z; auto. 
Qed.
Lemma bowtie_bad np_sum fcos fsin a xo yo t ox oy : sums_up np_sum -> bad_pixel a -> (g_ns t <= 2 ^ 26)%Z ->
  calc_bowtie_offsets_f np_sum fcos fsin a xo yo t = Ok (ox, oy) -> ox = fnan /\ oy = fnan.
Proof.
  intros Hs Hb Hn H. destruct (bowtie_parts _ _ _ _ _ _ _ _ _ H) as (q1 & q2 & q3 & q4 & x0 & x1 & y0 & y1 & E1 & E2 & E3 & E4 & X0 & X1 & Y0 & Y1 & X & Y & _).
  assert (K : forall m m', high (roi_sum_f np_sum m a) -> high (fadd (roi_sum_f np_sum m a) (roi_sum_f np_sum m' a))) by (intros; apply high_add_l; auto).
  rewrite high_ratio in X0, Y0 by (apply high_add_l; eapply roi_high; eauto). rewrite quad_nan_ratio in X0, Y0.
  apply ok_eq in X0, Y0. subst x0 y0. change (fopp fnan) with fnan in X, Y. rewrite fsub_nan_l in X, Y.
  apply bound_nan in X, Y. auto.
Qed.

(** ** The largest step *)
Lemma flt_false_fle x y : fisnan x = false -> fisnan y = false -> flt x y = false -> fle y x = true.
Proof.
  intros Nx Ny. unfold flt, fle, Bltb, Bleb, SpecFloat.SFltb, SpecFloat.SFleb.
  fold (SpecFloat.SFcompare (B2SF x) (B2SF y)). change (SpecFloat.SFcompare (B2SF x) (B2SF y)) with (Bcompare x y).
  change (SpecFloat.SFcompare (B2SF y) (B2SF x)) with (Bcompare y x). rewrite (Bcompare_swap _ _ x y).
  destruct (Bcompare x y) as [[]|] eqn:E; cbn; try discriminate; auto.
  intros _. exfalso. destruct x as [sx|sx| |sx mx ex Hx], y as [sy|sy| |sy my ey Hy]; try discriminate Nx; try discriminate Ny; try discriminate E;
   destruct sx; try discriminate E; destruct sy; discriminate E.
Qed.
Lemma fle_refl x : fisnan x = false -> fle x x = true.
Proof. intros N. apply flt_false_fle; auto. destruct x as [s|[]| |[] m e Hb]; try reflexivity; unfold flt, Bltb, SpecFloat.SFltb; cbn;
  rewrite Z.compare_refl, Pos.compare_refl; reflexivity. Qed.
Lemma pos_neg m : fisnan m = false -> fle m fzero = false -> fle (fopp m) m = true.
Proof. intros N H. destruct m as [s|[]| |[] mm e Hb]; try reflexivity; try discriminate N; try discriminate H; destruct s; discriminate H. Qed.
Lemma bound_range x m out : fisnan m = false -> fle m fzero = false -> bound_value_f x m = Ok out -> fisnan out = false ->
  fle (fopp m) out = true /\ fle out m = true.
Proof.
  intros Nm Hm H No. unfold bound_value_f in H. apply guard_ok in H as [_ H]. apply ok_eq in H. subst out.
  assert (Nm' : fisnan (fopp m) = false) by (destruct m; auto).
  destruct (flt m x) eqn:E1; [split; [apply pos_neg; auto|apply fle_refl; auto]|].
  destruct (flt x (fopp m)) eqn:E2; [split; [apply fle_refl; auto|apply pos_neg; auto]|].
  split; apply flt_false_fle; auto.
Qed.
Lemma neg_one x : fmul x (fofZ (-1)) = fopp x.
Proof.
  destruct (is_finite x) eqn:F; [|destruct x as [|[]| |]; try discriminate F; reflexivity].
  destruct x as [s|s| |s m e Hb]; try discriminate F; [destruct s; reflexivity|].
  set (x := B754_finite s m e Hb) in *. destruct (fofZ_spec (-1) ltac:(lia)) as [V1 F1].
  assert (Ev : fval x * fval (fofZ (-1)) = - fval x) by (rewrite V1; ring).
  destruct (fmul_spec x (fofZ (-1)) F F1) as [V Fv].
  { rewrite Ev, rnd_opp, rnd_id, Rabs_Ropp by apply fval_format. apply fval_bound. }
  rewrite Ev, rnd_opp, rnd_id in V by apply fval_format.
  assert (Nz : fval x <> 0) by (apply F2R_neq_0; destruct s; discriminate).
  apply fin_eq; [exact Fv|rewrite fin_opp; exact F|rewrite V, fval_opp; reflexivity|rewrite V; lra].
Qed.
Lemma spots_range np_sum fcos fsin a rot xo yo t g out : fisnan (f_max t) = false ->
  calc_offset_from_spots_f np_sum fcos fsin a rot xo yo t g = Ok out -> fisnan out = false ->
  fle (fopp (f_max t)) out = true /\ fle out (f_max t) = true.
Proof.
  intros Nm H No. destruct (spots_parts _ _ _ _ _ _ _ _ _ _ H) as (mp & mm & off & tgt & v & _ & _ & _ & _ & E5 & -> & Pm).
  destruct (f_inside t =? 0)%Z; [rewrite neg_one in *|exact (bound_range _ _ _ Nm Pm E5 No)].
  destruct (bound_range _ _ _ Nm Pm E5) as [A C]; [destruct v; auto|]. split; [rewrite fle_opp; exact C|].
  rewrite <- (fopp_invol (f_max t)), fle_opp. exact A.
Qed.
Lemma bowtie_range np_sum fcos fsin a xo yo t ox oy : fisnan (g_max t) = false ->
  calc_bowtie_offsets_f np_sum fcos fsin a xo yo t = Ok (ox, oy) ->
  (fisnan ox = false -> fle (fopp (g_max t)) ox = true /\ fle ox (g_max t) = true) /\
  (fisnan oy = false -> fle (fopp (g_max t)) oy = true /\ fle oy (g_max t) = true).
Proof.
  intros Nm H. destruct (bowtie_parts _ _ _ _ _ _ _ _ _ H) as (q1 & q2 & q3 & q4 & x0 & x1 & y0 & y1 & _ & _ & _ & _ & _ & _ & _ & _ & X & Y & Pm).
  split; intros N; eapply bound_range; eauto.
Qed.
