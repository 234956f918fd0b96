(** Concrete cases for pupilfit.py: a pupil of two pixels on a diagonal. *)
From Coq Require Import ZArith Bool List Reals Lra Lia String.
From Flocq Require Import Core.
From Coquelicot Require Import Complex.
From Verif.Base Require Import Py Arr Vec Sums CSum Lstsq.
From Verif.Model Require Shapes.
From Verif.Model Require Import Math Noll Fits PadCrop PsfFit MaskGen PupilUtil FitShapes Unwrap PupilFit.
From Verif.Spec Require Import ZernikeSpec MathSpec FitsSpec PsfFitSpec MaskGenSpec FitShapesSpec PupilUtilSpec PupilFitSpec.
From Verif.Proofs Require Import MathP PadCropP FitsP PsfFitP DarkHoleP MaskGenP MaskGenEx PupilUtilP PupilUtilN PupilUtilL PupilUtilC PupilUtilEx FitShapesP FitShapesEx ZernP PupilFitP PupilFitQ PupilFitO PupilFitZ.
Import ListNotations.
Open Scope list_scope.
Open Scope Z_scope.

Definition dlit (n y x i j : Z) : bool := ((i =? n / 2 - 1 + y) && (j =? n / 2 - 1 + x)) || ((i =? n / 2 + y) && (j =? n / 2 + x)).
(** Lit at the pixels offset by (y - 1, x - 1) and (y, x) from the centre pixel. *)
Definition diag (n y x : Z) : arr R := Arr n n (fun i j => if dlit n y x i j then 1%R else 0%R).
(** Both pixels, and the one between them in the same row, are in the array. *)
Definition fits (n y x : Z) : Prop := 0 <= n / 2 - 1 + y /\ n / 2 + y < n /\ 0 <= n / 2 - 1 + x /\ n / 2 + x < n.
Lemma ifeq (b c : bool) (u v : R) : (b = true <-> c = true) -> (if b then u else v) = (if c then u else v).
Proof. destruct b, c; intuition congruence. Qed.
Lemma diag_zero_one n y x : fits n y x -> zero_one_image (diag n y x).
Proof.
  intros (F1 & F2 & F3 & F4). split; [|split].
  - intros i j _. cbn [diag at2]. destruct (dlit _ _ _ _ _); auto.
  - exists (n / 2 - 1 + y), (n / 2 + x). split; [split; cbn [diag nr nc]; lia|]. cbn [diag at2]. unfold dlit.
    destruct (Z.eqb_spec (n / 2 + x) (n / 2 - 1 + x)); [lia|]. destruct (Z.eqb_spec (n / 2 - 1 + y) (n / 2 + y)); [lia|]. rewrite andb_false_r. reflexivity.
  - exists (n / 2 + y), (n / 2 + x). split; [split; cbn [diag nr nc]; lia|]. cbn [diag at2]. unfold dlit. rewrite !Z.eqb_refl. rewrite orb_true_r. reflexivity.
Qed.
Lemma zero_one_image_aeq a b : aeq a b -> zero_one_image a -> zero_one_image b.
Proof.
  intros (A1 & A2 & A3) (V & (i0 & j0 & I0 & V0) & (i1 & j1 & I1 & V1)).
  assert (T : forall i j, in_arr a i j <-> in_arr b i j) by (intros; unfold in_arr; rewrite A1, A2; tauto).
  split; [|split].
  - intros i j I. rewrite <- A3 by (apply T, I). apply V, T, I.
  - exists i0, j0. split; [apply T, I0|]. rewrite <- A3; auto.
  - exists i1, j1. split; [apply T, I1|]. rewrite <- A3; auto.
Qed.
Lemma diag_thresh a n y x : fits n y x -> aeq a (diag n y x) -> exists b, ampthresh a 21 = Ok b /\ aeq b (Arr n n (dlit n y x)).
Proof.
  intros F A. pose proof (zero_one_image_aeq _ _ (aeq_sym _ _ A) (diag_zero_one n y x F)) as Z. destruct (two_level_thresh a Z) as (b & E & B1 & B2 & L).
  exists b. split; [exact E|]. destruct A as (A1 & A2 & A3). cbn [diag nr nc] in A1, A2. split; [cbn [nr]; congruence|]. split; [cbn [nc]; congruence|]. intros i j I. cbn [at2].
  assert (Ia : in_arr a i j) by (unfold in_arr in *; rewrite <- B1, <- B2; exact I). specialize (L i j). unfold lit, bright in L. rewrite A3 in L by exact Ia. cbn [diag at2] in L.
  destruct (dlit n y x i j), (at2 b i j); auto.
  - destruct L as [_ L]. destruct (L (conj Ia eq_refl)). auto.
  - destruct L as [L _]. destruct (L (conj I eq_refl)). lra.
Qed.
Lemma aeq_zero_one b n y x : aeq b (Arr n n (dlit n y x)) -> aeq (zero_one_of b) (diag n y x).
Proof. intros A. exact (aeq_amap (fun v : bool => if v then 1%R else 0%R) _ _ A). Qed.
Lemma off_diag a n y x dy dx : 0 < n -> fits n y x -> aeq a (diag n y x) ->
  off_centre a dy dx = if ((dy =? y - 1) && (dx =? x - 1)) || ((dy =? y) && (dx =? x)) then 1%R else 0%R.
Proof.
  intros Hn (F1 & F2 & F3 & F4) (A1 & A2 & A3). cbn [diag nr nc] in A1, A2. unfold off_centre. rewrite A1, A2.
  destruct (in_arrb a (n / 2 + dy) (n / 2 + dx)) eqn:I.
  - apply in_arrb_spec in I. rewrite A3 by exact I. cbn [diag at2]. unfold dlit. apply ifeq; lia.
  - destruct ((dy =? y - 1) && (dx =? x - 1) || (dy =? y) && (dx =? x)) eqn:Q; [|reflexivity]. exfalso.
    assert (in_arrb a (n / 2 + dy) (n / 2 + dx) = true); [|congruence]. apply in_arrb_spec. unfold in_arr. rewrite A1, A2. lia.
Qed.
Lemma turn_none a ang mag xo yo pf flip : rotate_shift_downsample rotate_ref spline_ref a ang mag xo yo pf flip = rotate_shift_downsample rotate_ref spline_ref a 0 mag xo yo pf flip.
Proof.
  unfold rotate_shift_downsample, rotate_ref. repeat match goal with |- context [Req_EM_T ?u 0] => destruct (Req_EM_T u 0) end; reflexivity || lra.
Qed.
(** Turning, shifting and cropping to m by m. *)
Lemma down_diag a n y x ang X Y pf h H m : 0 < n -> fits n y x -> aeq a (diag n y x) -> (1 <= pf)%R ->
  least_odd_above (pf * IZR n) (2 * h + 1) -> least_odd_above (IZR (2 * h + 1) + 2 + 2 * IZR (Z.max (Z.abs X) (Z.abs Y))) (2 * H + 1) -> 4 <= 2 * h + 1 ->
  - h < y - 1 -> y < h -> - h < x - 1 -> x < h -> 0 < m -> m / 2 <= H -> m - m / 2 - 1 <= H ->
  exists p r, rotate_shift_downsample rotate_ref spline_ref a ang (1 / 1) (IZR X) (IZR Y) pf false = Ok p /\ pad_crop p [m; m] 0%R = Ok r /\
    aeq r (diag m (y + Y) (x + X)).
Proof.
  intros Hn F A Hp Hh HH H4 Y1 Y2 X1 X2 Hm M1 M2. pose proof A as (A1 & A2 & _). cbn [diag nr nc] in A1, A2.
  assert (W : wf a) by (unfold wf; lia).
  destruct (unit_ok rotate_ref spline_ref a pf false X Y h H W spline_ref_good Hp) as (p & E & P1 & P2 & _ & _ & V); auto.
  { rewrite A1, A2, Z.max_id. exact Hh. }
  assert (V' := V ltac:(intros d Hd; rewrite !(off_diag a n y x) by auto; repeat split;
    match goal with |- (if ?b then _ else _) = _ => destruct b eqn:Q; [exfalso; lia|reflexivity] end)). clear V.
  destruct (pad_crop_ok p m m 0%R ltac:(unfold wf; lia) Hm Hm) as (r & Er & R1 & R2 & RV).
  exists p, r. split; [rewrite turn_none; replace (1 / 1)%R with 1%R by field; exact E|]. split; [exact Er|].
  split; [exact R1|]. split; [exact R2|]. intros i j [Hi Hj]. rewrite R1 in Hi. rewrite R2 in Hj. rewrite RV by auto. rewrite P1, P2.
  replace (2 * (H + 1) / 2) with (H + 1) by (rewrite Z.mul_comm, Z.div_mul; lia).
  rewrite (proj2 (in_arrb_spec p _ _)) by (split; lia).
  replace (i - m / 2 + (H + 1)) with (H + 1 + (i - m / 2)) by lia. replace (j - m / 2 + (H + 1)) with (H + 1 + (j - m / 2)) by lia.
  rewrite V' by lia. unfold flipped. rewrite (off_diag a n y x) by auto. cbn [diag at2]. unfold dlit.
  apply ifeq; lia.
Qed.
Lemma pad_diag a n y x m : 0 < n -> fits n y x -> fits m y x -> aeq a (diag n y x) -> 0 < m -> exists r, pad_crop a [m; m] 0%R = Ok r /\ aeq r (diag m y x).
Proof.
  intros Hn F F' A Hm. pose proof A as (A1 & A2 & _). cbn [diag nr nc] in A1, A2.
  destruct (pad_crop_ok a m m 0%R ltac:(unfold wf; lia) Hm Hm) as (r & Er & R1 & R2 & RV). exists r. split; [exact Er|]. split; [exact R1|]. split; [exact R2|].
  intros i j [Hi Hj]. rewrite R1 in Hi. rewrite R2 in Hj. rewrite RV by auto.
  pose proof (off_diag a n y x (i - m / 2) (j - m / 2) Hn F A) as O. unfold off_centre in O.
  replace (i - m / 2 + nr a / 2) with (nr a / 2 + (i - m / 2)) by lia. replace (j - m / 2 + nc a / 2) with (nc a / 2 + (j - m / 2)) by lia. rewrite O.
  cbn [diag at2]. unfold dlit. apply ifeq; lia.
Qed.
(** ** Clocking *)
Lemma norm_diag a m n y x q : fits n y x -> aeq a (diag n y x) -> aeq m (Arr n n (dlit n y x)) -> (0 <= q <= 100)%R -> exists f, compute_norm_factor a (amap of_bool m) q = Ok f.
Proof.
  intros (F1 & F2 & F3 & F4) (A1 & A2 & _) (M1 & M2 & M3) Hq. destruct (compute_norm_factor a (amap of_bool m) q) as [f|e] eqn:E; [eauto|]. exfalso.
  cbn [diag nr nc] in *. apply norm_err in E as [_ [S|[Z|[Q|N]]]].
  - unfold same_shape in S. cbn [amap nr nc] in S. rewrite A1, A2, M1, M2, !Z.eqb_refl in S. discriminate.
  - apply Z. intros i j _. cbn [amap at2]. unfold of_bool. destruct (at2 m i j); auto.
  - lra.
  - assert (I : in_arr m (n / 2 + y) (n / 2 + x)) by (split; rewrite ?M1, ?M2; lia). specialize (N _ _ I). cbn [amap at2] in N. rewrite M3 in N by exact I.
    cbn [at2] in N. unfold dlit in N. rewrite !Z.eqb_refl, orb_true_r in N. cbn in N. lra.
Qed.
Lemma clock_diag lstsq amp maskPad n y x k v u X Y h H q delta : fits n y x -> 0 < n -> aeq amp (diag n y x) -> 0 < k -> fits k v u -> aeq maskPad (diag k v u) ->
  v + Y = y -> u + X = x -> (0 <= q <= 100)%R -> (0 <= delta)%R ->
  least_odd_above (1 * IZR k) (2 * h + 1) -> least_odd_above (IZR (2 * h + 1) + 2 + 2 * IZR (Z.max (Z.abs X) (Z.abs Y))) (2 * H + 1) -> 4 <= 2 * h + 1 ->
  - h < v - 1 -> v < h -> - h < u - 1 -> u < h -> n / 2 <= H -> n - n / 2 - 1 <= H ->
  exists c, compute_clocking lstsq rotate_ref spline_ref amp 1 maskPad 1 (IZR X) (IZR Y) 1 3 q delta false = Ok c.
Proof.
  intros F Hn A Hk Fk Ak EY EX Hq Hd Hh HH H4 V1 V2 U1 U2 N1 N2. unfold compute_clocking.
  rewrite (proj2 (Rltb_iff 0 1)), (proj2 (Rleb_iff 0 q)), (proj2 (Rleb_iff 0 delta)) by lra. cbn [Z.ltb Z.compare guard bind negb].
  assert (A' : aeq (amap (fun w => w ^ 2)%R amp) (diag n y x)).
  { destruct A as (A1 & A2 & A3). split; [exact A1|]. split; [exact A2|]. intros i j I. cbn [amap at2]. rewrite A3 by exact I. cbn [diag at2]. destruct (dlit _ _ _ _ _); ring. }
  destruct (diag_thresh _ n y x F A') as (m & -> & Am). cbn [bind]. destruct (norm_diag amp m n y x q F A Am Hq) as [f ->]. cbn [bind].
  destruct (fill_def (fun i => overlap_norm rotate_ref spline_ref amp maskPad (1 / 1) (IZR X) (IZR Y) q delta f (Shapes.linspace (- (1))%R 1 3 i)) (Z.to_nat 3) 0) as [r Er].
  - intros i Hi. unfold overlap_norm, rotated_ref.
    destruct (down_diag maskPad k v u (Shapes.linspace (- (1))%R 1 3 i) X Y 1 h H n) as (p & r & -> & Ec & Ar); auto; try lra. cbn [bind].
    destruct A as (A1 & A2 & _). cbn [diag nr nc] in A1, A2. rewrite A1, A2, Ec. cbn [bind]. rewrite EY, EX in Ar.
    destruct (diag_thresh r n y x F Ar) as (b & -> & Ab). cbn [bind]. destruct (norm_diag r b n y x q F Ar Ab Hq) as [g ->]. cbn [bind]. eauto.
  - rewrite Er. cbn [bind]. apply fit_def; [lia|lra].
Qed.
(** ** Lateral offsets *)
Lemma diag_window a n y x yc xc p q : 0 < n -> fits n y x -> aeq a (diag n y x) -> 0 <= p < 4 -> 0 <= q < 4 ->
  window a 4 yc xc p q = if dlit 4 (y - yc) (x - xc) p q then 1%R else 0%R.
Proof.
  intros Hn F A Hp Hq. pose proof (off_diag a n y x (yc + (p - 2)) (xc + (q - 2)) Hn F A) as O. unfold off_centre in O. unfold window.
  change (4 / 2) with 2. rewrite <- !Z.add_assoc. rewrite O. unfold dlit. change (4 / 2) with 2. apply ifeq; lia.
Qed.
(** The windows used: pixels (1, 0), (2, 1) or (2, 2), (3, 3). *)
Definition two_used (v u : Z) : Prop := (v = 0 /\ u = -1) \/ (v = 1 /\ u = 1).
Lemma diag_spec f v u k l : two_used v u -> (forall p q, 0 <= p < 4 -> 0 <= q < 4 -> f p q = if dlit 4 v u p q then 1%R else 0%R) ->
  (k = 0 \/ k = -1) -> (l = 0 \/ l = -1) -> (k, l) <> (0, 0) ->
  Cmod2 (spectrum 4 f k l) = if (k =? -1) && (l =? -1) then 0%R else (1 / 8)%R.
Proof.
  intros U Hf Hk Hl Hn.
  assert (E : forall t : R, (t = 0 -> cis t = RtoC 1)%R /\ (t = PI -> cis t = RtoC (-1))%R /\ (t = - PI -> cis t = RtoC (-1))%R /\
     (t = PI / 2 -> cis t = (0, 1))%R /\ (t = - (PI / 2) -> cis t = (0, -1))%R /\ (t = - (3 * (PI / 2)) -> cis t = (0, 1))%R /\
     (t = - (2 * PI) -> cis t = RtoC 1)%R).
  { intros t. assert (H2 : cis (PI / 2) = (0, 1)%R) by (unfold cis; rewrite cos_PI2, sin_PI2; auto).
    assert (H3 : cis (- (PI / 2)) = (0, -1)%R) by (unfold cis; rewrite cos_neg, sin_neg, cos_PI2, sin_PI2; auto).
    split; [intros ->; apply cis_0|]. split; [intros ->; apply cis_pi|]. split; [intros ->; apply cis_pi|]. split; [intros ->; auto|].
    split; [intros ->; auto|]. split; intros ->.
    - replace (- (3 * (PI / 2)))%R with (- PI + - (PI / 2))%R by field. rewrite cis_add, (proj2 cis_pi), H3.
      unfold Cmult, RtoC. cbn. f_equal; ring.
    - replace (- (2 * PI))%R with (- PI + - PI)%R by ring. rewrite cis_add, !(proj2 cis_pi). rewrite <- RtoC_mult. f_equal. ring. }
  assert (V : spectrum 4 f k l = ((cis (- (2 * PI * ((IZR (v - 1) * IZR k + IZR (u - 1) * IZR l) / 4))) + cis (- (2 * PI * ((IZR v * IZR k + IZR u * IZR l) / 4)))) / RtoC 4)%C).
  { unfold spectrum, csum2. f_equal. rewrite !csum_four, !Hf by lia. change (4 / 2) with 2.
    change (0 - 2) with (-2). change (1 - 2) with (-1). change (2 - 2) with 0. change (3 - 2) with 1.
    destruct U as [[-> ->]|[-> ->]]; unfold dlit; cbn [Z.div Z.div_eucl Z.pos_div_eucl Z.add Z.sub Z.opp Z.eqb Pos.eqb andb orb Z.pos_sub Pos.pred_double Z.leb Z.compare Pos.compare Pos.compare_cont Z.ltb Z.mul Pos.mul Pos.add Pos.succ];
      rewrite ?Cmult_0_l, ?Cmult_1_l, ?Cplus_0_l, ?Cplus_0_r; reflexivity. }
  rewrite V. clear V.
  destruct U as [[-> ->]|[-> ->]], Hk as [->| ->], Hl as [->| ->]; try congruence; cbn [Z.eqb Pos.eqb andb Z.sub Z.add Z.opp Z.pos_sub Pos.add Pos.succ];
  repeat (match goal with |- context [cis ?t] => let H := fresh in
    pose proof (E t) as H;
    first [rewrite (proj1 H) by field | rewrite (proj1 (proj2 H)) by field | rewrite (proj1 (proj2 (proj2 H))) by field
      | rewrite (proj1 (proj2 (proj2 (proj2 H)))) by field | rewrite (proj1 (proj2 (proj2 (proj2 (proj2 H))))) by field
      | rewrite (proj1 (proj2 (proj2 (proj2 (proj2 (proj2 H)))))) by field | rewrite (proj2 (proj2 (proj2 (proj2 (proj2 (proj2 H)))))) by field]; clear H end);
  unfold Cmod2, Cdiv, Cinv, Cmult, Cplus, RtoC; cbn [fst snd]; field.
Qed.
Lemma diag_mismatch f v u s t : two_used v u -> (forall p q, 0 <= p < 4 -> 0 <= q < 4 -> f p q = if dlit 4 v u p q then 1%R else 0%R) ->
  mismatch 4 2 f s t = ((2 - cos (PI / 2 * s) - cos (PI / 2 * t)) / 4)%R.
Proof.
  intros U Hf. unfold mismatch. unfold rsum2. rewrite !rsum_two. cbv zeta.
  change (2 / 2) with 1. change (0 - 1) with (-1). change (1 - 1) with 0.
  change (in_band 4 (-1)) with true. change (in_band 4 0) with true. cbn [andb].
  rewrite (diag_spec f v u (-1) (-1)), (diag_spec f v u (-1) 0), (diag_spec f v u 0 (-1)) by (auto; congruence). cbn [Z.eqb Pos.eqb andb].
  replace (2 * PI * ((s * 0 + t * -1) / 4))%R with (- (PI / 2 * t))%R by field.
  replace (2 * PI * ((s * -1 + t * 0) / 4))%R with (- (PI / 2 * s))%R by field.
  replace (2 * PI * ((s * 0 + t * 0) / 4))%R with 0%R by field. rewrite !cos_neg, cos_0. field.
Qed.
Lemma fit_bowl lstsq (m : R -> R -> R) x0 : is_lstsq_oracle lstsq ->
  (forall i j, 0 <= i < 3 -> 0 <= j < 3 -> m (trial 3 1 x0 j) (trial 3 1 0 i) = (IZR (j - 1) ^ 2 / 4 + IZR (i - 1) ^ 2 / 4)%R) ->
  find_optimum_2d lstsq (delta_vec 3 1 x0) (delta_vec 3 1 0)
    (Arr 3 3 (fun iy ix => m (vat (delta_vec 3 1 x0) ix) (vat (delta_vec 3 1 0) iy))) (afull 3 3 1%R) = Ok (x0, 0)%R.
Proof.
  intros O H. rewrite (opt2_exact lstsq O _ _ _ _ (1 / 4) 0 (1 / 4) (- x0 / 2) 0 (x0 ^ 2 / 4)); try reflexivity.
  - assert (T : (/ 10 ^ 15 <= / 100)%R) by (apply Rinv_le_contravar; [lra|]; replace 100%R with (10 ^ 2)%R by ring; apply Rle_pow; [lra|lia]).
    assert (0 < / 10 ^ 15)%R by (apply Rinv_0_lt_compat, pow_lt; lra).
    destruct (Rlt_dec _ _) as [L|_].
    { exfalso. replace (0 ^ 2 - 4 * (1 / 4) * (1 / 4))%R with (- (1 / 4))%R in L by field. rewrite Rabs_Ropp, Rabs_right in L by lra. lra. }
    destruct (Rlt_dec _ _) as [L|_].
    { exfalso. rewrite Rabs_right in L by lra. lra. }
    apply f_equal. f_equal; field.
  - intros i j _. right. reflexivity.
  - apply grid3_unisolvent. lra.
  - intros i j [Hi Hj] _. cbn [nr nc afull] in Hi, Hj. cbn [at2]. rewrite !delta_at by auto. rewrite H by auto. unfold quad2, trial. rewrite !minus_IZR. field.
Qed.
Lemma trials c : trial 3 1 c 0 = (c - 1)%R /\ trial 3 1 c 1 = c /\ trial 3 1 c 2 = (c + 1)%R.
Proof. unfold trial. repeat split; field. Qed.
Lemma cosines : cos (PI / 2 * 1) = 0%R /\ cos (PI / 2 * 0) = 1%R /\ cos (PI / 2 * -1) = 0%R /\ cos (PI / 2 * -2) = (-1)%R.
Proof.
  rewrite Rmult_1_r, Rmult_0_r. split; [apply cos_PI2|]. split; [apply cos_0|]. split.
  - replace (PI / 2 * -1)%R with (- (PI / 2))%R by ring. rewrite cos_neg. apply cos_PI2.
  - replace (PI / 2 * -2)%R with (- PI)%R by field. rewrite cos_neg. apply cos_PI.
Qed.
Ltac eval_cos C1 C0 Cm Cm2 := repeat match goal with |- context [cos (PI / 2 * ?e)] => first
  [ replace (PI / 2 * e)%R with (PI / 2 * 1)%R by (f_equal; ring); rewrite C1
  | replace (PI / 2 * e)%R with (PI / 2 * 0)%R by (f_equal; ring); rewrite C0
  | replace (PI / 2 * e)%R with (PI / 2 * -1)%R by (f_equal; ring); rewrite Cm
  | replace (PI / 2 * e)%R with (PI / 2 * -2)%R by (f_equal; ring); rewrite Cm2 ] end.
(** The image one column to the right of the reference. *)
Lemma lateral_right lstsq fuel rnd meas ref x xc yc : is_lstsq_oracle lstsq -> fits 7 0 x -> aeq meas (diag 7 0 x) -> aeq ref (diag 4 0 (-1)) ->
  ZnearestE xc = x -> ZnearestE yc = 0 -> compute_lateral_offsets lstsq fuel rnd meas ref 1 3 1 4 2 2 false xc yc = Some (Ok (0, IZR (x + 1))%R).
Proof.
  intros O F Am Ar Ex Ey.
  assert (S0 : starts fuel rnd meas 1 false xc yc x 0) by (cbn; auto).
  assert (Wm : 0 < nr meas /\ 0 < nc meas) by (destruct Am as (A1 & A2 & _); cbn in A1, A2; lia).
  assert (Wr : wf ref) by (destruct Ar as (A1 & A2 & _); cbn in A1, A2; split; lia).
  assert (Hr : forall p q, 0 <= p < 4 -> 0 <= q < 4 -> window ref 4 0 0 p q = if dlit 4 0 (-1) p q then 1%R else 0%R).
  { intros p q Hp Hq. rewrite (diag_window ref 4 0 (-1)) by (auto; unfold fits; Z.div_mod_to_equations; lia). reflexivity. }
  assert (Sh : window_shift 4 (window ref 4 0 0) 0 1 (window meas 4 0 x)).
  { intros p q Hp Hq. rewrite Hr by (apply Z.mod_pos_bound; lia). rewrite (diag_window meas 7 0 x) by (auto; lia). replace (0 - 0) with 0 by lia. replace (x - x) with 0 by lia.
    assert (p = 0 \/ p = 1 \/ p = 2 \/ p = 3) as [->|[->|[->| ->]]] by lia;
    assert (q = 0 \/ q = 1 \/ q = 2 \/ q = 3) as [->|[->|[->| ->]]] by lia; reflexivity. }
  assert (U : two_used 0 (-1)) by (left; auto).
  rewrite (lateral_unfold lstsq fuel rnd meas ref 1 3 1 4 2 2 false xc yc x 0) by (try lra; try lia; auto).
  set (m := misfit 4 2 _ _).
  destruct cosines as (C1 & C0 & Cm & Cm2).
  assert (M : forall s t, m s t = ((2 - cos (PI / 2 * (s - 1)) - cos (PI / 2 * t)) / 4)%R).
  { intros s t. unfold m. rewrite (misfit_shift 4 2 _ 0 1) by (lia || reflexivity || exact Sh). rewrite (diag_mismatch _ 0 (-1)) by auto.
    replace (t - 0)%R with t by ring. auto. }
  destruct (trials 0%R) as (t0 & t1 & t2). destruct (trials 1%R) as (u0 & u1 & u2).
  assert (V : forall i j, 0 <= i < 3 -> 0 <= j < 3 -> m (trial 3 1 0 j) (trial 3 1 0 i) =
    ((2 - (if j =? 0 then -1 else if j =? 1 then 0 else 1) - (if i =? 1 then 1 else 0)) / 4)%R).
  { intros i j Hi Hj. rewrite M.
    assert (i = 0 \/ i = 1 \/ i = 2) as [->|[->| ->]] by lia; assert (j = 0 \/ j = 1 \/ j = 2) as [->|[->| ->]] by lia;
    cbn [Z.eqb Pos.eqb]; rewrite ?t0, ?t1, ?t2; eval_cos C1 C0 Cm Cm2; lra. }
  change (Z.to_nat 2) with 2%nat. cbn [lateral_loop]. unfold lateral_step at 1. cbn [Z.ltb Z.compare Z.eqb andb Pos.compare Pos.compare_cont].
  destruct (argmin_ok 3 (fun iy ix => m (vat (delta_vec 3 1 0) ix) (vat (delta_vec 3 1 0) iy)) ltac:(lia)) as (b & Eb & B).
  rewrite Eb. cbn [bind].
  assert (B' : first_max (fun i j => - m (trial 3 1 0 j) (trial 3 1 0 i))%R 3 3 (fst b) (snd b)).
  { revert B. apply first_max_ext. intros i j Hi' Hj'. rewrite !delta_at by auto. auto. }
  assert (Fm : first_max (fun i j => - m (trial 3 1 0 j) (trial 3 1 0 i))%R 3 3 1 2).
  { split; [lia|]. split; [lia|]. split.
    - intros i j Hi Hj. rewrite !V by lia. cbn [Z.eqb Pos.eqb]. destruct (j =? 0), (j =? 1), (i =? 1); lra.
    - intros i j Hi Hj Bf. rewrite !V by lia. unfold before in Bf. cbn [Z.eqb Pos.eqb].
      destruct (Z.eqb_spec j 0), (Z.eqb_spec j 1), (Z.eqb_spec i 1); lra || lia. }
  destruct (first_max_unique _ _ _ _ _ _ _ B' Fm) as [E1 E2]. rewrite E1, E2, !delta_at by lia. rewrite t2, t1. rewrite Rplus_0_l.
  unfold lateral_step. cbn [Z.add Z.ltb Z.compare Z.eqb andb Pos.compare Pos.compare_cont].
  rewrite (fit_bowl lstsq m 1); auto.
  - cbn [bind fst snd]. rewrite plus_IZR. do 3 f_equal. ring.
  - intros i j Hi Hj. rewrite M.
    assert (i = 0 \/ i = 1 \/ i = 2) as [->|[->| ->]] by lia; assert (j = 0 \/ j = 1 \/ j = 2) as [->|[->| ->]] by lia;
      cbn [Z.sub Z.add Z.opp Pos.add Z.pos_sub Pos.pred_double]; rewrite ?t0, ?t1, ?t2, ?u0, ?u1, ?u2; eval_cos C1 C0 Cm Cm2; lra.
Qed.
(** ** fit_unmasked_pupil *)
Lemma lit_list_aeq b b' : aeq b b' -> lit_list b = lit_list b'.
Proof.
  intros (A1 & A2 & A3). unfold lit_list. rewrite A1, A2. apply filter_ext_in. intros [i j] H. cbn [fst snd]. apply A3. apply in_indices in H. cbn [fst snd] in H.
  unfold in_arr. rewrite A1, A2. exact H.
Qed.
Lemma box_contours_aeq b b' : aeq b b' -> box_contours b = box_contours b'.
Proof. intros A. unfold box_contours. rewrite (lit_list_aeq _ _ A). reflexivity. Qed.
Lemma ellipse_diag a x : (x = 0 \/ x = 2) -> aeq a (diag 7 0 x) -> fit_ellipse box_contours box_ellipse a 0 1 = Ok (1, IZR x - 1 / 2, - 1 / 2)%R.
Proof.
  intros Hx A. assert (F : fits 7 0 x) by (unfold fits; Z.div_mod_to_equations; lia). unfold fit_ellipse. pose proof A as (A1 & A2 & _). cbn [diag nr nc] in A1, A2. rewrite A1, A2.
  replace (Zceil (1 * IZR (Z.max 7 7))) with 7 by (symmetry; change (Z.max 7 7) with 7; rewrite Rmult_1_l; apply Zceil_IZR).
  destruct (pad_diag a 7 0 x 7 ltac:(lia) F F A ltac:(lia)) as (r & -> & Ar). cbn [bind].
  destruct (diag_thresh r 7 0 x F Ar) as (b & -> & Ab). cbn [bind]. unfold dilate_erode. cbn [Z.eqb].
  rewrite (box_contours_aeq _ _ Ab). destruct Ab as (B1 & B2 & _). cbn [nr nc] in B1, B2. rewrite B1, B2.
  destruct Hx as [->| ->].
  - replace (box_contours (Arr 7 7 (dlit 7 0 0))) with [[(2, 2); (3, 3)]] by (vm_compute; reflexivity). cbn [bind box_ellipse]. change (7 / 2) with 3. cbn [Z.add Z.sub Z.opp Pos.add Pos.succ Z.pos_sub Pos.pred_double Pos.add_carry Z.succ_double Z.pred_double Z.double].
    f_equal. rewrite Rmax_left by lra. f_equal; [f_equal|]; field.
  - replace (box_contours (Arr 7 7 (dlit 7 0 2))) with [[(4, 2); (5, 3)]] by (vm_compute; reflexivity). cbn [bind box_ellipse]. change (7 / 2) with 3. cbn [Z.add Z.sub Z.opp Pos.add Pos.succ Z.pos_sub Pos.pred_double Pos.add_carry Z.succ_double Z.pred_double Z.double].
    f_equal. rewrite Rmax_left by lra. f_equal; [f_equal|]; field.
Qed.
Lemma half_even x : Z.Even x -> ZnearestE (IZR x - 1 / 2) = x.
Proof.
  intros E. replace (IZR x - 1 / 2)%R with (- 1 / 2 + IZR x)%R by field. rewrite Znearest_add by auto.
  enough (Q : ZnearestE (- 1 / 2)%R = 0) by (rewrite Q; reflexivity). unfold Znearest.
  replace (Zfloor (- 1 / 2)) with (-1) by (symmetry; apply Zfloor_imp; cbn; lra). rewrite Rcompare_Eq by lra.
  change (negb (Z.even (-1))) with true. cbv iota. apply Zceil_imp. cbn. lra.
Qed.
Definition tuning7 : tuning := {| p_nIterOffsets := 2; p_nPadFFT := 4; p_nFocusCrop := 2; p_nPhaseSteps := 3; p_dPixel := 1; p_clockDegMax := 1;
  p_nClock := 3; p_maskRef := diag 7 0 (-1); p_diamHighRes := 1; p_rotRef := 0; p_flipxRef := false; p_padFacRef := 1; p_deltaAmpMax := 1 / 10;
  p_percentile := 50; p_zeroPadding := 1; p_nIterDilateErode := 0; p_padFactor := 1 |}.
Lemma odd_above x n : Z.Odd n -> (x <= IZR n)%R -> (IZR n - 2 < x)%R -> least_odd_above x n.
Proof.
  intros [k Hk] H1 H2. split; [exists k; exact Hk|]. split; [exact H1|]. intros m [l Hl] Hm. assert (n - 2 < m) by (apply lt_IZR; rewrite minus_IZR; lra). lia.
Qed.
Lemma ceil_even8 : ceil_even (IZR (Z.max 7 7) + 1) = 8.
Proof. change (Z.max 7 7) with 7. unfold ceil_even. replace (/ 2 * (7 + 1))%R with (IZR 4) by (cbn; field). rewrite Zceil_IZR. reflexivity. Qed.
Section Fit.
Variables (lstsq1 : lstsq1_fun) (lstsq : lstsq_fun) (fuel : nat) (rnd : R -> R).
Hypothesis oracle : is_lstsq_oracle lstsq.
Notation fit7 := (fit_unmasked_pupil box_contours box_ellipse lstsq1 lstsq rotate_ref spline_ref fuel rnd).
Lemma fit_diag x : (x = 0 \/ x = 2) -> exists c, fit7 (diag 7 0 x) tuning7 = Some (Ok (IZR (x + 1), 0, c, 1)%R).
Proof.
  intros Hx. assert (F : fits 7 0 x) by (unfold fits; Z.div_mod_to_equations; lia). assert (Fr : fits 7 0 (-1)) by (unfold fits; Z.div_mod_to_equations; lia).
  destruct (diag_thresh (diag 7 0 x) 7 0 x F (aeq_refl _)) as (m & Em & Am). pose proof (aeq_zero_one _ _ _ _ Am) as Az.
  destruct (down_diag (diag 7 0 (-1)) 7 0 (-1) 0 0 0 1 3 4 4) as (p & r & Ep & Er & Ar); auto using aeq_refl; try lra; try lia; try (cbn; lia).
  { apply odd_above; [exists 3; auto| |]; cbn; lra. }
  { apply odd_above; [exists 4; auto| |]; cbn; lra. }
  cbn [Z.add] in Ar.
  assert (Xe : Z.Even x) by (destruct Hx as [->| ->]; [exists 0|exists 1]; auto).
  pose proof (lateral_right lstsq fuel rnd (zero_one_of m) r x (IZR x - 1 / 2) (- 1 / 2) oracle F Az Ar (half_even x Xe)
    ltac:(replace (- 1 / 2)%R with (IZR 0 - 1 / 2)%R by (cbn; field); apply half_even; exists 0; auto)) as L.
  destruct (pad_diag (diag 7 0 (-1)) 7 0 (-1) 8) as (k & Ek & Ak); auto using aeq_refl; try lia; try (unfold fits; Z.div_mod_to_equations; lia).
  destruct (clock_diag lstsq1 (zero_one_of m) k 7 0 x 8 0 (-1) (x + 1) 0 4 (6 + x) 50 (1 / 10)) as [c Ec]; auto; try lra; try lia; try (unfold fits; Z.div_mod_to_equations; lia); try (cbn; lia).
  { apply odd_above; [exists 4; auto| |]; cbn; lra. }
  { apply odd_above; destruct Hx as [->| ->]; cbn; [exists 6|exists 8|..]; lra || auto. }
  exists c. eapply fit_intro; cbn [tuning7 p_nIterOffsets p_nPadFFT p_nFocusCrop p_nPhaseSteps p_dPixel p_clockDegMax p_nClock p_maskRef p_diamHighRes
    p_rotRef p_flipxRef p_padFacRef p_deltaAmpMax p_percentile p_zeroPadding p_nIterDilateErode p_padFactor].
  - unfold check_tuning. cbn [tuning7 p_nIterOffsets p_nPadFFT p_nFocusCrop p_nPhaseSteps p_dPixel p_clockDegMax p_nClock p_maskRef p_diamHighRes
      p_rotRef p_flipxRef p_padFacRef p_deltaAmpMax p_percentile p_zeroPadding]. rewrite !(proj2 (Rltb_iff 0 _)), !(proj2 (Rleb_iff 0 _)) by lra. reflexivity.
  - exact Em.
  - exact (ellipse_diag _ x Hx Az).
  - exact Ep.
  - exact Er.
  - exact L.
  - unfold padded_reference. cbn [diag nr nc]. rewrite ceil_even8. exact Ek.
  - exact Ec.
Qed.
End Fit.
(** ** fit_unmasked_pupil_old *)
Definition old7 : tuning_old := {| q_nBeamNom := 1; q_nBin := 21; q_nPadFFT := 4; q_nFocusCrop := 2; q_nPhaseSteps := 3; q_dPixel := 1; q_clockDegMax := 1;
  q_nClock := 3; q_maskNom := diag 7 0 0; q_maskHigh := diag 7 1 1; q_diamHighRes := 1; q_deltaAmpMax := 1 / 10; q_percentile := 50; q_zeroPadding := 1 |}.
Lemma flux_diag a x y : aeq a (diag 7 0 0) -> disc_flux a 1 x y = if (x =? y) && ((x =? -1) || (x =? 0)) then 1%R else 0%R.
Proof.
  intros A. pose proof A as (A1 & A2 & A3). cbn [diag nr nc] in A1, A2. unfold disc_flux. rewrite A1, A2. change (7 / 2) with 3.
  transitivity (rsum2 (fun i j => if (i =? y + 3) && (j =? x + 3) then (if (x =? y) && ((x =? -1) || (x =? 0)) then 1%R else 0%R) else 0%R) 7 7).
  - apply rsum2_ext. intros i j Hi Hj. rewrite A3 by (split; lia). cbn [diag at2]. unfold dlit. change (7 / 2) with 3.
    assert (B : forall z w, (IZR z ^ 2 + IZR w ^ 2 <= (1 / 2) ^ 2)%R <-> z = 0 /\ w = 0).
    { intros z w. split; [|intros [-> ->]; cbn; lra]. intros H.
      assert (Q : forall t, (IZR t ^ 2 <= (1 / 2) ^ 2)%R -> t = 0).
      { intros t Ht. assert (-1 < t /\ t < 1); [|lia]. split; apply lt_IZR; nra. }
      split; apply Q; nra. }
    destruct (Rle_dec _ _) as [L|L]; rewrite B in L.
    + destruct L as [L1 L2]. assert (j = x + 3) by lia. assert (i = y + 3) by lia. subst i j. rewrite !Z.eqb_refl. cbn [andb]. apply ifeq. lia.
    + destruct ((i =? y + 3) && (j =? x + 3)) eqn:Q; [|reflexivity]. exfalso. apply L. lia.
  - destruct ((x =? y) && ((x =? -1) || (x =? 0))) eqn:Q.
    + rewrite (rsum2_delta (fun _ _ => 1%R) 7 7 (y + 3) (x + 3)) by lia. reflexivity.
    + apply rsum2_all_zero. intros i j _ _. destruct ((i =? y + 3) && (j =? x + 3)); reflexivity.
Qed.
Lemma coarse_diag a : aeq a (diag 7 0 0) -> coarsely_locate_pupil_offset 1 (fun x => x) a 1 3 = Some (Ok (-1, -1)).
Proof.
  intros A. pose proof A as (A1 & A2 & _). cbn [diag nr nc] in A1, A2.
  unfold coarsely_locate_pupil_offset. rewrite (proj2 (Rltb_iff 0 1)), (proj2 (Rltb_iff 0 3)), (proj2 (Rleb_false 3 1)) by lra. cbn [negb].
  assert (F : first_step (fun x => x) 1 3 = 1).
  { unfold first_step. replace (Zfloor (1 / 3)) with 0; [reflexivity|]. symmetry. apply Zfloor_imp. cbn. lra. }
  rewrite F, A1, A2. change (Z.max (7 / 2) (7 / 2)) with 3. cbn [coarse_loop].
  destruct (once_ok a 1 0 0 3 1) as (x & y & m & E & B & _); [split; lia|lra|lia|lia|].
  assert (G : best_on_grid a 1 0 0 3 1 (-1) (-1)).
  { split; [exists 2; lia|]. split; [exists 2; lia|]. intros x' y' _ _. rewrite !(flux_diag a) by exact A. cbn [Z.eqb Pos.eqb andb orb].
    destruct ((x' =? y') && ((x' =? -1) || (x' =? 0))) eqn:Q; split; try lra. intros H. exfalso. lia. }
  destruct (best_unique _ _ _ _ _ _ _ _ _ _ B G) as [-> ->]. rewrite E. reflexivity.
Qed.
Lemma abs_diag n y x : aeq (amap Rabs (diag n y x)) (diag n y x).
Proof. split; [reflexivity|]. split; [reflexivity|]. intros i j _. cbn [amap diag at2]. destruct (dlit _ _ _ _ _); [apply Rabs_R1|apply Rabs_R0]. Qed.
Lemma area_diag : exists s, (0 < s)%R /\ normalized_area (amap Rabs (diag 7 0 0)) 50 = Ok s.
Proof.
  assert (F : fits 7 0 0) by (unfold fits; Z.div_mod_to_equations; lia). pose proof (abs_diag 7 0 0) as A. pose proof (nonneg_abs (diag 7 0 0)) as P.
  set (a := amap Rabs (diag 7 0 0)) in *.
  assert (G : exists s, normalized_area a 50 = Ok s).
  { unfold normalized_area. destruct (diag_thresh a 7 0 0 F A) as (m & Em & Am). rewrite Em. cbn [bind]. destruct (norm_diag a m 7 0 0 50 F A Am ltac:(lra)) as [f Ef].
    rewrite Ef. cbn [bind]. change (amap of_bool m) with (zero_one_of m) in Ef. apply norm_ok in Ef as (_ & _ & _ & Ne & Pc).
    pose proof (factor_positive _ _ _ _ _ P Em Pc Ne) as Fp. assert (Fi : (0 < / f)%R) by (apply Rinv_0_lt_compat; exact Fp).
    destruct (ampthresh_scaled a (amap (fun v => v / f)%R a) (/ f) 21 m Fi) as (m' & -> & _); [|exact Em|cbn [bind]; eauto].
    split; [reflexivity|]. split; [reflexivity|]. intros. cbn [amap at2]. unfold Rdiv. ring. }
  destruct G as [s G]. exists s. split; [exact (area_positive _ _ _ P G)|exact G].
Qed.
Section OldFit.
Variables (lstsq1 : lstsq1_fun) (lstsq : lstsq_fun).
Hypothesis oracle : is_lstsq_oracle lstsq.
Lemma lateral_same meas ref : aeq meas (diag 7 0 0) -> aeq ref (diag 4 1 1) ->
  compute_lateral_offsets lstsq 1 (fun x => x) meas ref 1 3 1 4 2 1 true 0 0 = Some (Ok (-1, -1)%R).
Proof.
  intros Am Ar. assert (F : fits 7 0 0) by (unfold fits; Z.div_mod_to_equations; lia).
  assert (Wm : 0 < nr meas /\ 0 < nc meas) by (destruct Am as (A1 & A2 & _); cbn in A1, A2; lia).
  assert (Wr : wf ref) by (destruct Ar as (A1 & A2 & _); cbn in A1, A2; split; lia).
  assert (Hr : forall p q, 0 <= p < 4 -> 0 <= q < 4 -> window ref 4 0 0 p q = if dlit 4 1 1 p q then 1%R else 0%R).
  { intros p q Hp Hq. rewrite (diag_window ref 4 1 1) by (auto; unfold fits; Z.div_mod_to_equations; lia). reflexivity. }
  assert (Sh : window_shift 4 (window ref 4 0 0) 0 0 (window meas 4 (-1) (-1))).
  { intros p q Hp Hq. rewrite Hr by (apply Z.mod_pos_bound; lia). rewrite (diag_window meas 7 0 0) by (auto; lia). rewrite !Z.sub_0_r, !Z.mod_small by lia. reflexivity. }
  rewrite (lateral_unfold lstsq 1 (fun x => x) meas ref 1 3 1 4 2 1 true 0 0 (-1) (-1)) by (try lra; try lia; auto; apply coarse_diag, Am).
  set (m := misfit 4 2 _ _).
  destruct cosines as (C1 & C0 & Cm & Cm2).
  assert (M : forall s t, m s t = ((2 - cos (PI / 2 * s) - cos (PI / 2 * t)) / 4)%R).
  { intros s t. unfold m. rewrite (misfit_shift 4 2 _ 0 0) by (lia || reflexivity || exact Sh). rewrite (diag_mismatch _ 1 1) by (auto; right; auto).
    rewrite !Rminus_0_r. auto. }
  change (Z.to_nat 1) with 1%nat. cbn [lateral_loop]. unfold lateral_step. cbn [Z.ltb Z.compare Z.eqb andb Pos.compare Pos.compare_cont].
  rewrite (fit_bowl lstsq m 0); auto.
  - cbn [bind fst snd]. rewrite Rplus_0_r. reflexivity.
  - intros i j Hi Hj. rewrite M. destruct (trials 0%R) as (t0 & t1 & t2).
    assert (i = 0 \/ i = 1 \/ i = 2) as [->|[->| ->]] by lia; assert (j = 0 \/ j = 1 \/ j = 2) as [->|[->| ->]] by lia;
      cbn [Z.sub Z.add Z.opp Pos.add Z.pos_sub Pos.pred_double]; rewrite ?t0, ?t1, ?t2; eval_cos C1 C0 Cm Cm2; lra.
Qed.
Lemma old_diag : exists c, fit_unmasked_pupil_old lstsq1 lstsq rotate_ref spline_ref 1 (fun x => x) (diag 7 0 0) old7 = Some (Ok (-1, -1, c, 1)%R).
Proof.
  assert (F : fits 7 0 0) by (unfold fits; Z.div_mod_to_equations; lia). assert (Fr : fits 7 1 1) by (unfold fits; Z.div_mod_to_equations; lia).
  destruct (diag_thresh (diag 7 0 0) 7 0 0 F (aeq_refl _)) as (m & Em & Am). pose proof (aeq_zero_one _ _ _ _ Am) as Az.
  destruct area_diag as (s & Sp & Es).
  destruct (down_diag (diag 7 1 1) 7 1 1 0 0 0 (12 / 10) 4 5 4) as (p & r & Ep & Er & Ar); auto using aeq_refl; try lra; try lia; try (cbn; lia).
  { apply odd_above; [exists 4; auto| |]; cbn; lra. }
  { apply odd_above; [exists 5; auto| |]; cbn; lra. }
  cbn [Z.add] in Ar.
  destruct (pad_diag (diag 7 1 1) 7 1 1 8) as (k & Ek & Ak); auto using aeq_refl; try lia; try (unfold fits; Z.div_mod_to_equations; lia).
  destruct (clock_diag lstsq1 (amap Rabs (diag 7 0 0)) k 7 0 0 8 1 1 (-1) (-1) 4 6 50 (1 / 10)) as [c Ec]; auto using abs_diag; try lra; try lia; try (unfold fits; Z.div_mod_to_equations; lia); try (cbn; lia).
  { apply odd_above; [exists 4; auto| |]; cbn; lra. }
  { apply odd_above; [exists 6; auto| |]; cbn; lra. }
  exists c. unfold fit_unmasked_pupil_old. cbn [old7 q_nBeamNom q_nBin q_nPadFFT q_nFocusCrop q_nPhaseSteps q_dPixel q_clockDegMax q_nClock q_maskNom q_maskHigh
    q_diamHighRes q_deltaAmpMax q_percentile q_zeroPadding].
  rewrite !(proj2 (Rltb_iff 0 _)), !(proj2 (Rleb_iff 0 _)) by lra. cbn [guard bind]. rewrite Em. cbn [obind]. rewrite Es. cbn [bind].
  replace (1 * sqrt (s / s))%R with 1%R by (replace (s / s)%R with 1%R by (field; lra); rewrite sqrt_1; ring).
  rewrite Ep. cbn [bind]. rewrite Er. cbn [bind obind]. change (amap of_bool m) with (zero_one_of m). rewrite (lateral_same _ _ Az Ar). cbn [obind].
  unfold padded_reference. cbn [diag nr nc]. rewrite ceil_even8. fold (diag 7 1 1). rewrite Ek. cbn [bind]. rewrite Ec. reflexivity.
Qed.
End OldFit.
(** ** fit_pupil_zernikes *)
Definition ones7 : arr R := afull 7 7 1%R.
Lemma tilts Zf prad x y : (0 < prad)%R -> is_mode_fun prad Zf -> Zf 1 x y = 1%R /\ Zf 2 x y = (2 * (x / prad))%R /\ Zf 3 x y = (2 * (y / prad))%R.
Proof.
  intros Hp M. assert (Q : exists rho th, polar_of x y rho th) by (do 2 eexists; apply polar_ok). destruct Q as (rho & th & P). pose proof P as (_ & _ & <- & <-).
  assert (S4 : sqrt (2 * (1 + 1)) = 2%R) by (replace (2 * (1 + 1))%R with (2 * 2)%R by ring; apply sqrt_square; lra).
  assert (R1 : forall r, radial 1 1 r = r).
  { intros r. unfold radial, radial_coef, zfact. change ((1 - 1) / 2 + 1) with 1. rewrite rsum_one. replace (Z.to_nat ((1 + 1) / 2 - 0)) with 1%nat by reflexivity. replace (Z.to_nat ((1 - 1) / 2 - 0)) with 0%nat by reflexivity. cbn. change (Pos.to_nat 1) with 1%nat. cbn. field. }
  split; [|split].
  - rewrite (M 1 0 0 _ _ rho th); [|split; [lia|]; split; [exists 0; lia|]; left; split; [lia|reflexivity]|exact P].
    unfold noll_zernike. cbn [Z.eqb]. rewrite Rplus_0_l, sqrt_1. unfold radial, radial_coef, zfact. change ((0 - 0) / 2 + 1) with 1. rewrite rsum_one. cbn. field.
  - rewrite (M 2 1 1 _ _ rho th); [|split; [lia|]; split; [exists 0; lia|]; right; split; [lia|left; reflexivity]|exact P].
    unfold noll_zernike. cbn [Z.eqb Z.even]. rewrite S4, R1, Rmult_1_l. field. lra.
  - rewrite (M 3 1 1 _ _ rho th); [|split; [lia|]; split; [exists 0; lia|]; right; split; [lia|right; reflexivity]|exact P].
    unfold noll_zernike. cbn [Z.eqb Z.even]. rewrite S4, R1, Rmult_1_l. field. lra.
Qed.
Lemma rsum_three f : rsum f 3 = (f 0%Z + f 1%Z + f 2%Z)%R.
Proof. change 3 with (2 + 1). rewrite rsum_succ, rsum_two by lia. reflexivity. Qed.
Lemma ones7_independent Zf wfe : is_mode_fun (1 / 2) Zf -> nr wfe = 7 -> nc wfe = 7 -> modes_independent 3 Zf (IZR (0 + 1)) 0 wfe ones7.
Proof.
  intros M W1 W2 a H k Hk.
  assert (V : forall r c, 0 <= r < 7 -> 0 <= c < 7 -> (a 0%Z + a 1%Z * (4 * (IZR (c - 3) - 1)) + a 2%Z * (4 * IZR (r - 3)))%R = 0%R).
  { intros r c Hr Hc. transitivity (mode_comb 3 Zf (IZR (0 + 1)) 0 wfe a r c). 2:{ apply H. split; [split; cbn; lia|cbn; lra]. } unfold mode_comb. rewrite rsum_three. unfold mode_at. cbn [Z.add Pos.add Pos.succ].
    rewrite W1, W2. change (7 / 2) with 3. destruct (tilts Zf (1 / 2) (IZR (c - 3) - 1) (IZR (r - 3) - 0) ltac:(lra) M) as (-> & -> & ->). field. }
  pose proof (V 3 4 ltac:(lia) ltac:(lia)) as V0. pose proof (V 3 5 ltac:(lia) ltac:(lia)) as V1. pose proof (V 4 4 ltac:(lia) ltac:(lia)) as V2.
  cbn in V0, V1, V2. assert (a 0%Z = 0 /\ a 1%Z = 0 /\ a 2%Z = 0)%R by lra.
  assert (k = 0 \/ k = 1 \/ k = 2) as [->|[->| ->]] by lia; tauto.
Qed.
Definition fit7 (lstsq1 : lstsq1_fun) (lstsq : lstsq_fun) (amp : arr R) : res (R * R * R * R) :=
  match fit_unmasked_pupil box_contours box_ellipse lstsq1 lstsq rotate_ref spline_ref 0 (fun x => x) amp tuning7 with Some r => r | None => Err KeyError end.
Lemma zernikes7 lstsq1 lstsq wfe : is_lstsq_oracle lstsq -> nr wfe = 7 -> nc wfe = 7 ->
  exists z, fit_pupil_zernikes (fit7 lstsq1 lstsq) lstsq wfe (diag 7 0 0) (Some ones7) 3 None = Ok z /\ z_diam z = 1%R /\ z_x z = IZR (0 + 1) /\ z_y z = 0%R /\
    z_mask z = ones7.
Proof.
  intros O W1 W2. destruct (fit_diag lstsq1 lstsq 0 (fun x => x) O 0 (or_introl eq_refl)) as [c Ef].
  assert (E : fit7 lstsq1 lstsq (diag 7 0 0) = Ok (IZR (0 + 1), 0, c, 1)%R) by (unfold fit7; rewrite Ef; reflexivity).
  assert (Z1 : zero_one ones7) by (intros r k _; right; reflexivity).
  destruct (pz_total (fit7 lstsq1 lstsq) lstsq wfe (diag 7 0 0) (Some ones7) 3 None _ _ _ _ ones7 ltac:(congruence) ltac:(lia) ltac:(lia)
    ltac:(intros b [= <-]; exact Z1) ltac:(lia) E ltac:(lra) eq_refl ltac:(rewrite W1; reflexivity) ltac:(rewrite W2; reflexivity)) as [z Ez].
  exists z. split; [exact Ez|]. destruct (pz_inv _ _ _ _ _ _ _ _ Ez) as (_ & _ & c' & E'). rewrite E in E'. injection E' as <- <- _ <-.
  destruct (pz_ok (fit7 lstsq1 lstsq) lstsq wfe (diag 7 0 0) (Some ones7) 3 None z ltac:(congruence) ltac:(lia) ltac:(lia) Ez) as (M & _). injection M as <-. auto.
Qed.
(** ** The hypotheses of the recovery and translation theorems *)
Lemma recover_case lstsq1 lstsq fuel rnd : is_lstsq_oracle lstsq -> exists c m xc yc ref,
  wf (p_maskRef tuning7) /\ fit_unmasked_pupil box_contours box_ellipse lstsq1 lstsq rotate_ref spline_ref fuel rnd (diag 7 0 0) tuning7 = Some (Ok (1, 0, c, 1)%R) /\
  ampthresh (diag 7 0 0) 21 = Ok m /\ fit_ellipse box_contours box_ellipse (zero_one_of m) 0 1 = Ok (1%R, xc, yc) /\ ZnearestE xc = 0 /\ ZnearestE yc = 0 /\
  rotate_shift_downsample rotate_ref spline_ref (diag 7 0 (-1)) 0 (1 / 1) 0 0 1 false = Ok ref /\
  window_shift 4 (window ref 4 0 0) 0 1 (window (zero_one_of m) 4 (ZnearestE yc) (ZnearestE xc)) /\
  spectrum 4 (window ref 4 0 0) 0 (-1) <> RtoC 0 /\ spectrum 4 (window ref 4 0 0) (-1) 0 <> RtoC 0 /\
  (exists i j, 0 <= i < 3 /\ 0 <= j < 3 /\ trial 3 1 0 j = IZR 1 /\ trial 3 1 0 i = IZR 0).
Proof.
  intros O. destruct (fit_diag lstsq1 lstsq fuel rnd O 0 (or_introl eq_refl)) as [c Ef].
  assert (F : fits 7 0 0) by (unfold fits; Z.div_mod_to_equations; lia). assert (Fr : fits 7 0 (-1)) by (unfold fits; Z.div_mod_to_equations; lia).
  destruct (diag_thresh (diag 7 0 0) 7 0 0 F (aeq_refl _)) as (m & Em & Am). pose proof (aeq_zero_one _ _ _ _ Am) as Az.
  destruct (down_diag (diag 7 0 (-1)) 7 0 (-1) 0 0 0 1 3 4 4) as (p & r & Ep & Er & Ar); auto using aeq_refl; try lra; try lia; try (cbn; lia).
  { apply odd_above; [exists 3; auto| |]; cbn; lra. }
  { apply odd_above; [exists 4; auto| |]; cbn; lra. }
  cbn [Z.add] in Ar. assert (W : wf (diag 7 0 (-1))) by (split; cbn; lia).
  destruct (pad_crop_rec p 4 r (down_wf' _ _ _ _ _ _ _ _ _ _ W Ep) Er) as [_ Rr].
  assert (Hr : forall i j, 0 <= i < 4 -> 0 <= j < 4 -> window p 4 0 0 i j = if dlit 4 0 (-1) i j then 1%R else 0%R).
  { intros i j Hi Hj. rewrite <- (window_recentred p 4 r) by auto. rewrite (diag_window r 4 0 (-1)) by (auto; unfold fits; Z.div_mod_to_equations; lia). reflexivity. }
  assert (N1 : ZnearestE (IZR 0 - 1 / 2) = 0) by (apply half_even; exists 0; auto).
  assert (N2 : ZnearestE (- 1 / 2) = 0) by (replace (- 1 / 2)%R with (IZR 0 - 1 / 2)%R by (cbn; field); exact N1).
  exists c, m, (IZR 0 - 1 / 2)%R, (- 1 / 2)%R, p. rewrite N1, N2.
  split; [exact W|]. split; [exact Ef|]. split; [exact Em|]. split; [exact (ellipse_diag _ 0 (or_introl eq_refl) Az)|]. split; [reflexivity|]. split; [reflexivity|]. split; [exact Ep|].
  split.
  { intros i j Hi Hj. rewrite Hr by (apply Z.mod_pos_bound; lia). rewrite (diag_window (zero_one_of m) 7 0 0) by (auto; lia). change (0 - 0) with 0.
    assert (i = 0 \/ i = 1 \/ i = 2 \/ i = 3) as [->|[->|[->| ->]]] by lia;
    assert (j = 0 \/ j = 1 \/ j = 2 \/ j = 3) as [->|[->|[->| ->]]] by lia; reflexivity. }
  assert (S1 : forall k l, (k = 0 \/ k = -1) -> (l = 0 \/ l = -1) -> (k, l) <> (0, 0) -> (k =? -1) && (l =? -1) = false -> spectrum 4 (window p 4 0 0) k l <> RtoC 0).
  { intros k l Hk Hl Hn Hb H. pose proof (diag_spec _ 0 (-1) k l (or_introl (conj eq_refl eq_refl)) Hr Hk Hl Hn) as D. rewrite H, Hb in D. unfold Cmod2, RtoC in D. cbn [fst snd] in D. lra. }
  split; [apply S1; auto; congruence|]. split; [apply S1; auto; congruence|]. exists 1, 2. unfold trial. repeat split; lia || lra.
Qed.
Lemma translation_case lstsq1 lstsq fuel rnd : is_lstsq_oracle lstsq -> exists m m' xc yc c c',
  wf (p_maskRef tuning7) /\ follow_translations box_contours box_ellipse /\ ampthresh (diag 7 0 0) 21 = Ok m /\ ampthresh (diag 7 0 2) 21 = Ok m' /\
  moved 0 2 m m' /\ round_up (1 * IZR (Z.max (nr (diag 7 0 0)) (nc (diag 7 0 0)))) 7 /\ pads 0 7 (diag 7 0 0) /\
  fit_ellipse box_contours box_ellipse (zero_one_of m) 0 1 = Ok (1%R, xc, yc) /\ Z.Even 2 /\ Z.Even 0 /\
  fit_unmasked_pupil box_contours box_ellipse lstsq1 lstsq rotate_ref spline_ref fuel rnd (diag 7 0 0) tuning7 = Some (Ok (1, 0, c, 1)%R) /\
  fit_unmasked_pupil box_contours box_ellipse lstsq1 lstsq rotate_ref spline_ref fuel rnd (diag 7 0 2) tuning7 = Some (Ok (3, 0, c', 1)%R).
Proof.
  intros O. destruct (fit_diag lstsq1 lstsq fuel rnd O 0 (or_introl eq_refl)) as [c Ef]. destruct (fit_diag lstsq1 lstsq fuel rnd O 2 (or_intror eq_refl)) as [c' Ef'].
  assert (F : fits 7 0 0) by (unfold fits; Z.div_mod_to_equations; lia). assert (F' : fits 7 0 2) by (unfold fits; Z.div_mod_to_equations; lia).
  destruct (diag_thresh (diag 7 0 0) 7 0 0 F (aeq_refl _)) as (m & Em & Am). destruct (diag_thresh (diag 7 0 2) 7 0 2 F' (aeq_refl _)) as (m' & Em' & Am').
  exists m, m', (IZR 0 - 1 / 2)%R, (- 1 / 2)%R, c, c'.
  split; [split; cbn; lia|]. split; [exact box_follows|]. split; [exact Em|]. split; [exact Em'|]. split.
  { destruct Am as (A1 & A2 & A3), Am' as (B1 & B2 & B3). cbn [nr nc] in *. split; [congruence|]. split; [congruence|]. intros i j. unfold lit, in_arr. rewrite A1, A2, B1, B2.
    split; intros [I V].
    - rewrite B3 in V by (split; lia). cbn [at2] in V. unfold dlit in V. change (7 / 2) with 3 in V. assert (J : 0 <= j - 2) by lia. split; [lia|].
      rewrite A3 by (split; lia). cbn [at2]. unfold dlit. change (7 / 2) with 3. lia.
    - rewrite A3 in V by (split; lia). cbn [at2] in V. unfold dlit in V. change (7 / 2) with 3 in V. split; [lia|].
      rewrite B3 by (split; lia). cbn [at2]. unfold dlit. change (7 / 2) with 3. lia. }
  split; [unfold round_up; cbn; lra|]. split; [unfold pads; cbn; lia|]. split; [exact (ellipse_diag _ 0 (or_introl eq_refl) (aeq_zero_one _ _ _ _ Am))|].
  split; [exists 1; auto|]. split; [exists 0; auto|]. split; [exact Ef|exact Ef'].
Qed.
Lemma old_case lstsq1 lstsq : is_lstsq_oracle lstsq -> wf (q_maskHigh old7) /\ zero_one_image (diag 7 0 0) /\
  exists c, fit_unmasked_pupil_old lstsq1 lstsq rotate_ref spline_ref 1 (fun x => x) (diag 7 0 0) old7 = Some (Ok (-1, -1, c, 1)%R).
Proof.
  intros O. split; [split; cbn; lia|]. split; [apply diag_zero_one; unfold fits; Z.div_mod_to_equations; lia|]. apply old_diag, O.
Qed.
(** A small pupil for the default erosion of fit_pupil_zernikes. *)
Definition plus7 : arr R := Arr 7 7 (fun i j => if Z.abs (i - 3) + Z.abs (j - 3) <=? 1 then 1%R else 0%R).
Lemma plus7_eroded lstsq wfe : is_lstsq_oracle lstsq -> nr wfe = 7 -> nc wfe = 7 ->
  exists z, fit_pupil_zernikes (fun _ => Ok (0, 0, 0, 1)%R) lstsq wfe plus7 None 3 (Some pupil_selem) = Ok z /\
    at2 (z_mask z) 3 3 = 1%R /\ at2 (z_mask z) 3 4 = 0%R.
Proof.
  intros O W1 W2.
  assert (Z : zero_one_image plus7).
  { split; [|split].
    - intros i j _. cbn. destruct (_ <=? 1); auto.
    - exists 0, 0. split; [split; cbn; lia|reflexivity].
    - exists 3, 3. split; [split; cbn; lia|reflexivity]. }
  destruct (two_level_thresh plus7 Z) as (t & E & B1 & B2 & L).
  assert (V : forall i j, in_arr plus7 i j -> (at2 t i j = true <-> Z.abs (i - 3) + Z.abs (j - 3) <= 1)).
  { intros i j I. assert (It : in_arr t i j) by (unfold in_arr in *; rewrite B1, B2; exact I).
    specialize (L i j). unfold lit, bright in L. cbn [plus7 at2] in L. destruct (Z.leb_spec (Z.abs (i - 3) + Z.abs (j - 3)) 1) as [K|K].
    - split; [auto|]. intros _. apply L. split; auto.
    - split; [|lia]. intros H. destruct (proj1 L (conj It H)) as [_ Q]. lra. }
  destruct (pz_total (fun _ => Ok (0, 0, 0, 1)%R) lstsq wfe plus7 None 3 (Some pupil_selem) 0%R 0%R 0%R 1%R
              (amap of_bool (Arr (nr t) (nc t) (fun i j =>
                forallb (fun p => let k := i + fst p - nr pupil_selem / 2 in let l := j + snd p - nc pupil_selem / 2 in
                      negb (at2 pupil_selem (fst p) (snd p)) || (in_arrb t k l && at2 t k l))
                (indices (nr pupil_selem) (nc pupil_selem)))))) as [z Ez]; try congruence; try lia; try reflexivity; try lra.
  - unfold PupilFitZ.mask_of. rewrite E. reflexivity.
  - cbn [amap nr]. rewrite B1, W1. reflexivity.
  - cbn [amap nc]. rewrite B2, W2. reflexivity.
  - exists z. split; [exact Ez|]. destruct (pz_default_mask _ _ wfe _ _ _ O (eq_trans W2 (eq_sym W1)) ltac:(lia) ltac:(lia) Ez) as (t' & Et & T1 & T2 & P).
    assert (t' = t) as -> by congruence. split.
    + apply P; [split; lia|]. intros a b D. assert (I : in_arr plus7 a b) by (split; cbn; lia).
      split; [unfold in_arr in *; rewrite B1, B2; exact I|]. apply V; auto. 
    + destruct (P 3 4) as [Q [Q0|Q1]]; [split; lia|exact Q0|]. exfalso. destruct (proj1 Q Q1 3 5 ltac:(lia)) as [_ X].
      apply V in X; [lia|split; cbn; lia].
Qed.
