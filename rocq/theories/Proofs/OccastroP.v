(** Proofs about star location and spot separation. *)
From Coq Require Import ZArith Bool List String Reals Lra Lia.
From Verif.Base Require Import Py Arr Vec Sums Lstsq.
From Verif.Model Require Import Math Noll Fits Shapes Yaml DarkHole FocalFit PsfFit PupilUtil Occastro.
From Verif.Spec Require Import ShapesSpec DarkHoleSpec FocalFitSpec FitsSpec PsfFitSpec PupilUtilSpec OccastroSpec.
From Verif.Proofs Require Import FitsP ShapesP DarkHoleP FocalFitP PsfFitP PupilUtilC QuadFitP.
Import ListNotations.
Open Scope string_scope.
Open Scope Z_scope.

(** ** Flux as a function *)
Definition inside_disc (r u v : R) : bool := Rleb (u ^ 2 + v ^ 2) (r ^ 2).
Definition cov (r : R) (ns : Z) (x y : R) : R := gray (inside_disc r) ns x y.
Lemma cov_ok r ns x y : 0 < ns -> coverage (disc r) ns x y (cov r ns x y).
Proof. intros H. apply gray_coverage; auto. intros u v. unfold inside_disc, disc. apply Rleb_iff. Qed.
Definition spot_val (img : arr R) (r : R) (ns : Z) (cx cy : R) : R :=
  rsum2 (fun i j => cov r ns (px (nc img) cx j) (px (nr img) cy i) * at2 img i j)%R (nr img) (nc img).
Lemma spot_val_ok img r ns cx cy : 0 < ns -> spot_sum img r cx cy ns (spot_val img r ns cx cy).
Proof. intros H. exists (fun i j => cov r ns (px (nc img) cx j) (px (nr img) cy i)). split; [|reflexivity]. intros i j _ _. apply cov_ok, H. Qed.
Fixpoint pairs_val (img : arr R) (r : R) (ns : Z) (sep x y : R) (l : list R) : R :=
  match l with
  | [] => 0
  | a :: l' => spot_val img r ns (x + sep * cos (deg a)) (y + sep * sin (deg a)) +
               spot_val img r ns (x - sep * cos (deg a)) (y - sep * sin (deg a)) + pairs_val img r ns sep x y l'
  end%R.
Lemma pairs_val_ok img r ns sep x y l : 0 < ns -> pairs_flux img r ns sep x y l (pairs_val img r ns sep x y l).
Proof. intros H. induction l; cbn [pairs_val]; constructor; auto using spot_val_ok. Qed.
Lemma pairs_det img r ns sep x y l f : 0 < ns -> pairs_flux img r ns sep x y l f -> f = pairs_val img r ns sep x y l.
Proof.
  intros H P. induction P as [|a l s1 s2 s A B P IH]; [reflexivity|]. cbn [pairs_val]. rewrite IH.
  rewrite (spot_sum_det _ _ _ _ _ _ _ A (spot_val_ok _ _ _ _ _ H)), (spot_sum_det _ _ _ _ _ _ _ B (spot_val_ok _ _ _ _ _ H)). reflexivity.
Qed.
Lemma roi_val img r ns x y : 1 < nc img -> 0 < nr img -> (0 < r)%R -> 0 < ns ->
  exists m, roi img r x y ns = Ok m /\ FocalFit.masked_sum m img = spot_val img r ns x y.
Proof.
  intros H1 H2 Hr Hn. destruct (roi_ok img r x y ns H1 H2 Hr Hn) as (m & E & A). exists m. split; auto.
  apply (spot_sum_det _ _ _ _ _ _ _ A), spot_val_ok, Hn.
Qed.
Lemma masked_add m p img : FocalFit.masked_sum (amap2 Rplus m p) img = (FocalFit.masked_sum m img + FocalFit.masked_sum p img)%R.
Proof. unfold FocalFit.masked_sum. rewrite <- rsum2_add. apply rsum2_ext. intros i j _ _. cbn [amap2 at2]. ring. Qed.
Lemma roi_mask_ok img r ns sep x y l : 1 < nc img -> 0 < nr img -> (0 < r)%R -> 0 < ns -> forall acc,
  exists m, roi_mask img r ns sep x y l acc = Ok m /\ FocalFit.masked_sum m img = (FocalFit.masked_sum acc img + pairs_val img r ns sep x y l)%R.
Proof.
  intros H1 H2 Hr Hn. induction l as [|a l IH]; intros acc; cbn [roi_mask pairs_val].
  - exists acc. split; auto. ring.
  - rewrite !deg_eq.
    destruct (roi_val img r ns (cos (deg a) * sep + x) (sin (deg a) * sep + y) H1 H2 Hr Hn) as (p & -> & Vp).
    destruct (roi_val img r ns (cos (deg a + PI) * sep + x) (sin (deg a + PI) * sep + y) H1 H2 Hr Hn) as (q & -> & Vq). cbn [bind].
    destruct (IH (amap2 Rplus (amap2 Rplus acc p) q)) as (m & -> & V). exists m. split; auto.
    rewrite V, !masked_add, Vp, Vq, neg_cos, neg_sin.
    replace (cos (deg a) * sep + x)%R with (x + sep * cos (deg a))%R by ring. replace (sin (deg a) * sep + y)%R with (y + sep * sin (deg a))%R by ring.
    replace (- cos (deg a) * sep + x)%R with (x - sep * cos (deg a))%R by ring. replace (- sin (deg a) * sep + y)%R with (y - sep * sin (deg a))%R by ring.
    ring.
Qed.
Lemma roi_cost_ok img r ns l sep x y : 1 < nc img -> 0 < nr img -> (0 < r)%R -> 0 < ns ->
  roi_cost img r ns l sep x y = Ok (pairs_val img r ns sep x y l).
Proof.
  intros H1 H2 Hr Hn. unfold roi_cost. destruct (roi_mask_ok img r ns sep x y l H1 H2 Hr Hn (afull (nr img) (nc img) 0%R)) as (m & -> & V).
  cbn [bind]. rewrite V. f_equal.
  assert (E : FocalFit.masked_sum (afull (nr img) (nc img) 0%R) img = 0%R).
  { unfold FocalFit.masked_sum. apply rsum2_all_zero. intros i j _ _. cbn. ring. }
  rewrite E. ring.
Qed.
Lemma roi_cost_dims img r ns a l sep x y v : roi_cost img r ns (a :: l) sep x y = Ok v -> 1 < nc img /\ 0 < nr img.
Proof.
  unfold roi_cost. cbn [roi_mask]. intros H. inv_bind H. inv_bind E. unfold roi in E0. apply circle_range in E0 as (? & ? & _). auto.
Qed.

(** ** Files *)
Lemma numbers_ok vs : forall l, numbers_ vs = Ok l <-> Forall2 is_real vs l.
Proof.
  induction vs as [|v vs IH]; intros l; cbn [numbers_].
  - split; [intros [= <-]; constructor|inversion 1; auto].
  - split.
    + intros H. inv_bind H. inv_bind H. injection H as <-. constructor; [apply real_ok; auto|apply IH; auto].
    + inversion 1; subst. rewrite (proj2 (real_ok _ _)) by eassumption. cbn [bind]. rewrite (proj2 (IH _)) by eassumption. reflexivity.
Qed.
Lemma number_list_ok v l : number_list_ v = Ok l <-> exists vs, v = YList vs /\ Forall2 is_real vs l.
Proof.
  destruct v; cbn; (split; [try discriminate|intros (vs & E & F); try discriminate]).
  - intros H. eexists. split; [reflexivity|]. apply numbers_ok; auto.
  - injection E as ->. apply numbers_ok; auto.
Qed.
Definition read_spots {A} (sepKey : string) (tuning : yval) (k : R -> R -> list R -> Z -> Z -> R -> Z -> res A) : res A :=
  do sep_ <- item tuning sepKey;
  do radius_ <- item tuning "roiRadiusPix";
  do rot_ <- item tuning "probeRotVecDeg";
  do ns_ <- item tuning "nSubpixels";
  do steps_ <- item tuning "nSteps";
  do step_ <- item tuning "stepSize";
  do iter_ <- item tuning "nIter";
  do sep <- positive_scalar_ sep_;
  do radius <- positive_scalar_ radius_;
  do angs <- number_list_ rot_;
  do ns <- positive_int_ ns_;
  do nSteps <- positive_int_ steps_;
  do step <- positive_scalar_ step_;
  do nIter <- positive_int_ iter_;
  k sep radius angs ns nSteps step nIter.
Lemma read_ok {A} key tv t (k : R -> R -> list R -> Z -> Z -> R -> Z -> res A) : describes_spots key tv t ->
  read_spots key tv k = k (s_sep t) (s_radius t) (s_angles t) (s_sub t) (s_steps t) (s_step t) (s_iter t).
Proof.
  intros (K1 & P1 & K2 & P2 & K3 & K4 & P4 & K5 & P5 & K6 & P6 & K7 & P7). unfold read_spots.
  get K1. get K2. destruct K3 as (vs & A3 & B3). rewrite (proj2 (item_has _ _ _) A3). cbn [bind]. get K4. get K5. get K6. get K7.
  rewrite (proj2 (positive_ok x _) (conj B P1)), (proj2 (positive_ok x0 _) (conj B0 P2)). cbn [bind].
  rewrite (proj2 (number_list_ok (YList vs) (s_angles t))) by eauto. cbn [bind].
  rewrite (proj2 (int_ok x1 _) (conj B1 P4)), (proj2 (int_ok x2 _) (conj B2 P5)), (proj2 (positive_ok x3 _) (conj B4 P6)), (proj2 (int_ok x4 _) (conj B5 P7)).
  reflexivity.
Qed.
Lemma read_inv {A} key tv (k : R -> R -> list R -> Z -> Z -> R -> Z -> res A) a : read_spots key tv k = Ok a ->
  exists t, describes_spots key tv t /\ k (s_sep t) (s_radius t) (s_angles t) (s_sub t) (s_steps t) (s_step t) (s_iter t) = Ok a.
Proof.
  unfold read_spots. intros H. do 14 (inv_bind H).
  apply item_has in E, E0, E1, E2, E3, E4, E5. apply positive_ok in E6 as [E6 P6], E7 as [E7 P7], E11 as [E11 P11].
  apply int_ok in E9 as [E9 P9], E10 as [E10 P10], E12 as [E12 P12]. apply number_list_ok in E8 as (vs & -> & F).
  exists (Spots v6 v7 v8 v9 v10 v11 v12). split; [|exact H]. unfold describes_spots. cbn [s_sep s_radius s_angles s_sub s_steps s_step s_iter].
  unfold has_real, has_int, has_reals. repeat split; eauto.
Qed.
Lemma star_read lstsq img xg yg tv : calc_star_location_from_spots lstsq img xg yg tv =
  read_spots "spotSepPix" tv (fun sep r angs ns n d k => star_loop lstsq (fun x y => roi_cost img r ns angs sep (xg + x) (yg + y)) n d (Z.to_nat k) 0 0).
Proof. reflexivity. Qed.
Lemma sep_read lstsq img xo yo tv : calc_spot_separation lstsq img xo yo tv =
  read_spots "spotSepGuessPix" tv (fun sep r angs ns n d k => sep_loop lstsq (fun s => roi_cost img r ns angs s xo yo) n d (1 <? k) (Z.to_nat k) sep).
Proof. reflexivity. Qed.

(** ** The star search *)
Lemma steps_trial n d e i : vat (steps_about n d e) i = trial n d e i.
Proof. unfold steps_about, trial. cbn [vat]. field. Qed.
Lemma fill_mat_ok f (m : Z -> Z -> R) cols : (forall i j, f i j = Ok (m i j)) -> forall rows k,
  exists r, fill_mat f cols k rows = Ok r /\ forall i j, k <= i < k + Z.of_nat rows -> 0 <= j < Z.of_nat cols -> r i j = m i j.
Proof.
  intros H. induction rows as [|rows IH]; intros k; cbn [fill_mat].
  - eexists. split; [reflexivity|]. lia.
  - destruct (fill_def (f k) cols 0) as [v Ev]; [intros; rewrite H; eauto|]. rewrite Ev. cbn [bind].
    destruct (IH (k + 1)) as (r & -> & V). cbn [bind]. eexists. split; [reflexivity|]. intros i j Hi Hj.
    cbn beta. destruct (Z.eqb_spec i k) as [->|N]; [|apply V; lia].
    pose proof (fill_ok _ _ _ _ Ev j ltac:(lia)) as Q. rewrite H in Q. injection Q as <-. reflexivity.
Qed.
Section Star.
Variable lstsq : lstsq_fun.
Hypothesis oracle : is_lstsq_oracle lstsq.
Variables (cost : R -> R -> res R) (F : R -> R -> R) (n : Z) (d : R).
Hypothesis Hcost : forall x y, cost x y = Ok (F x y).
Hypothesis Hn : 0 < n.

Lemma star_step k x y : exists vx vy mat,
  (vlen vx = n /\ forall i, 0 <= i < n -> vat vx i = trial n d x i) /\
  (vlen vy = n /\ forall i, 0 <= i < n -> vat vy i = trial n d y i) /\
  (nr mat = n /\ nc mat = n /\ forall iy ix, 0 <= iy < n -> 0 <= ix < n -> at2 mat iy ix = F (trial n d x ix) (trial n d y iy)) /\
  star_loop lstsq cost n d (S k) x y =
    (do o <- find_optimum_2d lstsq vx vy mat (afull n n 1%R); star_loop lstsq cost n d k (fst o) (snd o)).
Proof.
  cbn [star_loop].
  destruct (fill_mat_ok (fun iy ix => cost (vat (steps_about n d x) ix) (vat (steps_about n d y) iy))
     (fun iy ix => F (trial n d x ix) (trial n d y iy)) (Z.to_nat n)) with (rows := Z.to_nat n) (k := 0) as (r & -> & V).
  { intros i j. rewrite Hcost, !steps_trial. reflexivity. }
  exists (steps_about n d x), (steps_about n d y), (Arr n n r).
  split; [split; [reflexivity|intros; apply steps_trial]|]. split; [split; [reflexivity|intros; apply steps_trial]|].
  split; [|reflexivity]. split; [reflexivity|]. split; [reflexivity|]. intros iy ix Hi Hj. apply V; lia.
Qed.
Lemma star_fits k : forall x y, match star_loop lstsq cost n d k x y with
  | Ok (x', y') => fits_from F n d k x y x' y'
  | Err e => e = Custom "QuadraticException"
  end.
Proof.
  induction k as [|k IH]; intros x y; [constructor|].
  destruct (star_step k x y) as (vx & vy & mat & Hx & Hy & Hm & ->).
  destruct (opt2_cases lstsq F n d x y vx vy mat Hx Hy Hm) as [->|(x1 & y1 & E & _)]; [reflexivity|].
  rewrite E. cbn [bind fst snd]. specialize (IH x1 y1). apply (fit_shift lstsq oracle F n d x y vx vy mat) in E; auto.
  destruct (star_loop lstsq cost n d k x1 y1) as [[x' y']|e]; auto. econstructor; eauto.
Qed.
Lemma star_symmetric x0 y0 : 2 <= n -> d <> 0%R -> (forall u v, F (x0 + u)%R (y0 + v)%R = F (x0 - u)%R (y0 - v)%R) -> forall k,
  star_loop lstsq cost n d k x0 y0 = Err (Custom "QuadraticException") \/ star_loop lstsq cost n d k x0 y0 = Ok (x0, y0).
Proof.
  intros H2 Hd Hs. induction k as [|k IH]; [right; reflexivity|].
  destruct (star_step k x0 y0) as (vx & vy & mat & Hx & Hy & Hm & ->).
  destruct (fit_symmetric lstsq oracle F n d x0 y0 Hn vx vy mat Hx Hy Hm H2 Hd) as [->| ->]; [|left; reflexivity|exact IH].
  intros i j Hi Hj. rewrite !trial_flip. unfold trial. rewrite Hs. f_equal; ring.
Qed.
End Star.
Lemma grid_unisolvent n d x0 y0 vx vy : 3 <= n -> d <> 0%R ->
  (forall i, 0 <= i < n -> vat vx i = trial n d x0 i) -> (forall i, 0 <= i < n -> vat vy i = trial n d y0 i) ->
  unisolvent2 vx vy (afull n n 1%R).
Proof.
  intros Hn Hd Hx Hy a b c p q r H. set (X := trial n d x0 1). set (Y := trial n d y0 1).
  assert (G : forall i j, 0 <= i < 3 -> 0 <= j < 3 -> quad2 a b c p q r (X + (IZR j - 1) * d) (Y + (IZR i - 1) * d) = 0%R).
  { intros i j Hi Hj. specialize (H i j). rewrite Hx, Hy in H by lia. 
    replace (X + (IZR j - 1) * d)%R with (trial n d x0 j) by (unfold X, trial; ring).
    replace (Y + (IZR i - 1) * d)%R with (trial n d y0 i) by (unfold Y, trial; ring). apply H; [split; cbn; lia|]. cbn. lra. }
  pose proof (G 0 0 ltac:(lia) ltac:(lia)) as G00. pose proof (G 1 1 ltac:(lia) ltac:(lia)) as G11.
  pose proof (G 0 1 ltac:(lia) ltac:(lia)) as G01. pose proof (G 2 1 ltac:(lia) ltac:(lia)) as G21.
  pose proof (G 1 0 ltac:(lia) ltac:(lia)) as G10. pose proof (G 1 2 ltac:(lia) ltac:(lia)) as G12. clear G H Hx Hy.
  clearbody X Y. unfold quad2 in *.
  assert (A : (a * d ^ 2 = 0)%R) by lra. assert (C : (c * d ^ 2 = 0)%R) by lra.
  assert (D2 : (d ^ 2 <> 0)%R) by (apply pow_nonzero; auto).
  assert (a = 0%R) as -> by (destruct (Rmult_integral _ _ A); [auto|contradiction]).
  assert (c = 0%R) as -> by (destruct (Rmult_integral _ _ C); [auto|contradiction]).
  assert (B : (b * d ^ 2 = 0)%R) by lra.
  assert (b = 0%R) as -> by (destruct (Rmult_integral _ _ B); [auto|contradiction]).
  assert (P : (p * d = 0)%R) by lra. assert (Q : (q * d = 0)%R) by lra.
  assert (p = 0%R) as -> by (destruct (Rmult_integral _ _ P); [auto|contradiction]).
  assert (q = 0%R) as -> by (destruct (Rmult_integral _ _ Q); [auto|contradiction]).
  repeat split; lra.
Qed.
(** A flux that is a non-degenerate quadratic is maximised (or has its stationary point) exactly. *)
Lemma star_quadratic lstsq cost F n d a b c p q r X Y : is_lstsq_oracle lstsq -> (forall x y, cost x y = Ok (F x y)) -> 3 <= n -> d <> 0%R ->
  (4 / 10 ^ 15 <= Rabs (b ^ 2 - 4 * a * c))%R -> (/ 10 ^ 15 <= Rabs c)%R ->
  stationary a b c p q X Y -> 
  (forall i j, 0 <= i < n -> 0 <= j < n -> F (trial n d X j) (trial n d Y i) = quad2 a b c p q r (trial n d X j) (trial n d Y i)) ->
  forall k x y,
  (forall i j, 0 <= i < n -> 0 <= j < n -> F (trial n d x j) (trial n d y i) = quad2 a b c p q r (trial n d x j) (trial n d y i)) ->
  star_loop lstsq cost n d (S k) x y = Ok (X, Y).
Proof.
  intros O Hc Hn Hd D C S HF0.
  assert (K : (0 < / 10 ^ 15)%R) by (apply Rinv_0_lt_compat, pow_lt; lra).
  assert (One : forall x y vx vy mat,
    (forall i j, 0 <= i < n -> 0 <= j < n -> F (trial n d x j) (trial n d y i) = quad2 a b c p q r (trial n d x j) (trial n d y i)) ->
    (vlen vx = n /\ forall i, 0 <= i < n -> vat vx i = trial n d x i) ->
    (vlen vy = n /\ forall i, 0 <= i < n -> vat vy i = trial n d y i) ->
    (nr mat = n /\ nc mat = n /\ forall iy ix, 0 <= iy < n -> 0 <= ix < n -> at2 mat iy ix = F (trial n d x ix) (trial n d y iy)) ->
    find_optimum_2d lstsq vx vy mat (afull n n 1%R) = Ok (X, Y)).
  { intros x y vx vy mat HF [Lx Hx] [Ly Hy] (Hr & Hcc & Hm).
    rewrite (opt2_exact lstsq O _ _ _ _ a b c p q r).
    - destruct (Rlt_dec _ _) as [L|_]; [exfalso; lra|]. destruct (Rlt_dec _ _) as [L|_].
      { exfalso. rewrite Rabs_mult, (Rabs_pos_eq 2) in L by lra. lra. }
      assert (b ^ 2 - 4 * a * c <> 0)%R by (intros Q; rewrite Q, Rabs_R0 in D; lra).
      destruct S as [S1 S2]. apply f_equal. f_equal; (apply Rmult_eq_reg_r with (b ^ 2 - 4 * a * c)%R; [|auto]);
        unfold Rdiv; rewrite Rmult_assoc, Rinv_l by auto; nra.
    - unfold same_shape. cbn. rewrite Hr, Hcc, !Z.eqb_refl. auto.
    - congruence.
    - congruence.
    - apply ones_bool.
    - eapply grid_unisolvent; eauto.
    - intros i j [Hi Hj] _. cbn in Hi, Hj. rewrite Hm, HF, Hx, Hy by auto. auto. }
  induction k as [|k IH]; intros x y HF.
  - destruct (star_step lstsq cost F n d Hc ltac:(lia) 0%nat x y) as (vx & vy & mat & Hx & Hy & Hm & ->). rewrite (One _ _ _ _ _ HF Hx Hy Hm). reflexivity.
  - destruct (star_step lstsq cost F n d Hc ltac:(lia) (Datatypes.S k) x y) as (vx & vy & mat & Hx & Hy & Hm & ->). rewrite (One _ _ _ _ _ HF Hx Hy Hm). apply IH, HF0.
Qed.

(** ** Translation *)
Lemma fitted_translate F n d gx gy x0 y0 x y : fitted_shift (fun u v => F (gx + u)%R (gy + v)%R) n d x0 y0 x y ->
  fitted_shift F n d (gx + x0) (gy + y0) (gx + x) (gy + y).
Proof.
  intros (a & b & c & p & q & r & M & D & S).
  assert (T : forall i e, trial n d (e + x0) i = (e + trial n d x0 i)%R) by (intros; unfold trial; ring).
  assert (T' : forall i e, trial n d (e + y0) i = (e + trial n d y0 i)%R) by (intros; unfold trial; ring).
  assert (E : forall a b c p q r, surface_err F n d (gx + x0) (gy + y0) a b c p q r =
     surface_err (fun u v => F (gx + u)%R (gy + v)%R) n d x0 y0 a b c (p + 2 * a * gx + b * gy) (q + 2 * c * gy + b * gx)
       (r + p * gx + q * gy + a * gx ^ 2 + b * gx * gy + c * gy ^ 2)).
  { intros. unfold surface_err. apply rsum2_ext. intros i j _ _. rewrite T, T'. unfold quad2. ring. }
  exists a, b, c, (p - 2 * a * gx - b * gy)%R, (q - 2 * c * gy - b * gx)%R,
    (r - (p - 2 * a * gx - b * gy) * gx - (q - 2 * c * gy - b * gx) * gy - a * gx ^ 2 - b * gx * gy - c * gy ^ 2)%R.
  split; [|split; [exact D|]].
  - intros a' b' c' p' q' r'. rewrite !E. eapply Rle_trans; [|apply M]. right. f_equal; ring.
  - destruct S as [S1 S2]. split; lra.
Qed.
Lemma fits_translate F n d gx gy k x0 y0 x y : fits_from (fun u v => F (gx + u)%R (gy + v)%R) n d k x0 y0 x y ->
  fits_from F n d k (gx + x0) (gy + y0) (gx + x) (gy + y).
Proof. induction 1; econstructor; eauto using fitted_translate. Qed.
Lemma star_ok lstsq img xg yg tv t : is_lstsq_oracle lstsq -> describes_spots "spotSepPix" tv t -> 1 < nc img -> 0 < nr img ->
  match calc_star_location_from_spots lstsq img xg yg tv with
  | Ok (x, y) => star_found img t xg yg (xg + x) (yg + y)
  | Err e => e = Custom "QuadraticException"
  end.
Proof.
  intros O D Hc Hr. rewrite star_read, (read_ok _ _ _ _ D).
  assert (P : (0 < s_radius t)%R /\ 0 < s_sub t /\ 0 < s_steps t) by (split; [|split]; apply D). destruct P as (P1 & P2 & P3).
  set (F := fun u v => pairs_val img (s_radius t) (s_sub t) (s_sep t) u v (s_angles t)).
  pose proof (star_fits lstsq O (fun x y => roi_cost img (s_radius t) (s_sub t) (s_angles t) (s_sep t) (xg + x) (yg + y))
    (fun x y => F (xg + x)%R (yg + y)%R) (s_steps t) (s_step t)) as Q.
  specialize (Q (fun x y => roi_cost_ok img _ _ _ _ _ _ Hc Hr P1 P2) P3 (Z.to_nat (s_iter t)) 0%R 0%R).
  destruct (star_loop _ _ _ _ _ _ _) as [[x y]|e]; auto. apply fits_translate in Q. rewrite !Rplus_0_r in Q.
  exists F. split; [|exact Q]. intros u v. apply pairs_val_ok, P2.
Qed.
Lemma star_zero_guess lstsq img tv t x y : is_lstsq_oracle lstsq -> describes_spots "spotSepPix" tv t -> 1 < nc img -> 0 < nr img ->
  calc_star_location_from_spots lstsq img 0 0 tv = Ok (x, y) -> star_found img t 0 0 x y.
Proof. intros O D Hc Hr E. pose proof (star_ok lstsq img 0 0 tv t O D Hc Hr) as Q. rewrite E, !Rplus_0_l in Q. exact Q. Qed.
Lemma star_inv lstsq img xg yg tv o : calc_star_location_from_spots lstsq img xg yg tv = Ok o ->
  exists t, describes_spots "spotSepPix" tv t /\ (s_angles t <> [] -> 1 < nc img /\ 0 < nr img).
Proof.
  rewrite star_read. intros H. apply read_inv in H as (t & D & H). exists t. split; auto. intros A.
  destruct (s_angles t) as [|a l]; [contradiction|]. assert (P3 : 0 < s_steps t) by apply D. assert (P4 : 0 < s_iter t) by apply D.
  replace (Z.to_nat (s_iter t)) with (S (Z.to_nat (s_iter t - 1))) in H by lia. cbn [star_loop] in H. inv_bind H.
  replace (Z.to_nat (s_steps t)) with (S (Z.to_nat (s_steps t - 1))) in E by lia. cbn [fill_mat fill_vec] in E. inv_bind E. inv_bind E0.
  eapply roi_cost_dims; eauto.
Qed.
(** When the fluxes at the trial positions about the guess and about (X, Y) lie on a quadratic surface with its
    stationary point at (X, Y), the position found is (X, Y). *)
Lemma star_exact lstsq img xg yg tv t a b c p q r X Y : is_lstsq_oracle lstsq -> describes_spots "spotSepPix" tv t -> 1 < nc img -> 0 < nr img ->
  3 <= s_steps t ->
  (forall x0 y0 i j, (x0 = xg /\ y0 = yg) \/ (x0 = X /\ y0 = Y) -> 0 <= i < s_steps t -> 0 <= j < s_steps t ->
     let x := trial (s_steps t) (s_step t) x0 j in let y := trial (s_steps t) (s_step t) y0 i in
     pairs_flux img (s_radius t) (s_sub t) (s_sep t) x y (s_angles t) (quad2 a b c p q r x y)) ->
  (4 / 10 ^ 15 <= Rabs (b ^ 2 - 4 * a * c))%R -> (/ 10 ^ 15 <= Rabs c)%R -> stationary a b c p q X Y ->
  calc_star_location_from_spots lstsq img xg yg tv = Ok (X - xg, Y - yg)%R.
Proof.
  intros O D Hc Hr H3 HF HD HC HS. rewrite star_read, (read_ok _ _ _ _ D).
  assert (P : (0 < s_radius t)%R /\ 0 < s_sub t /\ (0 < s_step t)%R /\ 0 < s_iter t) by (repeat split; apply D). destruct P as (P1 & P2 & P3 & P4).
  replace (Z.to_nat (s_iter t)) with (S (Z.to_nat (s_iter t - 1))) by lia.
  assert (Q : forall x0 y0, (xg + x0 = xg /\ yg + y0 = yg)%R \/ (xg + x0 = X /\ yg + y0 = Y)%R -> forall i j, 0 <= i < s_steps t -> 0 <= j < s_steps t ->
    let x := trial (s_steps t) (s_step t) x0 j in let y := trial (s_steps t) (s_step t) y0 i in
    pairs_val img (s_radius t) (s_sub t) (s_sep t) (xg + x) (yg + y) (s_angles t) = quad2 a b c (p + 2 * a * xg + b * yg) (q + 2 * c * yg + b * xg)
       (r + p * xg + q * yg + a * xg ^ 2 + b * xg * yg + c * yg ^ 2) x y).
  { intros x0 y0 H0 i j Hi Hj x y. specialize (HF (xg + x0)%R (yg + y0)%R i j H0 Hi Hj). cbv zeta in HF.
    apply pairs_det in HF; auto. 
    replace (trial (s_steps t) (s_step t) (xg + x0) j) with (xg + x)%R in HF by (unfold x, trial; ring).
    replace (trial (s_steps t) (s_step t) (yg + y0) i) with (yg + y)%R in HF by (unfold y, trial; ring).
    rewrite <- HF. unfold quad2. ring. }
  apply (star_quadratic lstsq _ (fun x y => pairs_val img (s_radius t) (s_sub t) (s_sep t) (xg + x) (yg + y) (s_angles t)) _ _ a b c (p + 2 * a * xg + b * yg) (q + 2 * c * yg + b * xg)
       (r + p * xg + q * yg + a * xg ^ 2 + b * xg * yg + c * yg ^ 2)); auto; try lra.
  - intros x y. apply roi_cost_ok; auto.
  - destruct HS as [S1 S2]. split; lra.
  - apply Q. right. split; ring.
  - apply Q. left. split; ring.
Qed.

(** ** Point symmetry *)
Lemma rsum_reflect f n c : (forall k, ~ 0 <= k < n -> f k = 0%R) -> (forall k, ~ 0 <= c - k < n -> f k = 0%R) ->
  rsum (fun k => f (c - k)) n = rsum f n.
Proof.
  intros H1 H2. destruct (Z_lt_le_dec c 0) as [L|L].
  { rewrite !rsum_all_zero; auto; intros k Hk; [apply H2|apply H1]; lia. }
  destruct (Z_lt_le_dec c n) as [L'|L'].
  - replace n with (c + 1 + (n - (c + 1))) by lia. rewrite (rsum_split (fun k => f (c - k)) (c + 1)), (rsum_split f (c + 1)) by lia.
    rewrite (rsum_all_zero (fun k => f (c - (c + 1 + k))) _) by (intros k Hk; apply H1; lia).
    rewrite (rsum_all_zero (fun k => f (c + 1 + k)) _) by (intros k Hk; apply H2; lia). f_equal.
    rewrite <- (rsum_rev f). apply rsum_ext. intros k _. f_equal. lia.
  - destruct (Z_le_gt_dec (2 * n - 1) c) as [G|G].
    { rewrite !rsum_all_zero; auto; intros k Hk; [apply H2|apply H1]; lia. }
    set (o := c - n + 1). replace n with (o + (n - o)) at 1 2 by lia. rewrite (rsum_split (fun k => f (c - k)) o), (rsum_split f o) by lia.
    rewrite (rsum_all_zero (fun k => f (c - k)) o) by (intros k Hk; apply H1; lia).
    rewrite (rsum_all_zero f o) by (intros k Hk; apply H2; lia). f_equal.
    rewrite <- (rsum_rev (fun k => f (o + k))). apply rsum_ext. intros k _. f_equal. unfold o. lia.
Qed.
Lemma cov_mirror r ns x y : 0 < ns -> cov r ns (- x) (- y) = cov r ns x y.
Proof.
  intros Hn. destruct (cov_ok r ns x y Hn) as (f & H & E). apply (coverage_unique (disc r) ns (- x) (- y)); [apply cov_ok, Hn|].
  exists (fun p q => f (ns - 1 - p) (ns - 1 - q)). split.
  - intros p q Hp Hq. specialize (H (ns - 1 - p) (ns - 1 - q) ltac:(lia) ltac:(lia)). rewrite !sub_sym in H by auto.
    unfold disc in *. replace ((x + - sub ns q) ^ 2 + (y + - sub ns p) ^ 2)%R with ((- x + sub ns q) ^ 2 + (- y + sub ns p) ^ 2)%R in H by ring. exact H.
  - rewrite E. f_equal. rewrite <- (rsum2_flip_v f), <- (rsum2_flip_h (fun i j => f (ns - 1 - i) j)). reflexivity.
Qed.
Lemma spot_val_pixel img r ns cx cy : spot_val img r ns cx cy =
  rsum2 (fun i j => cov r ns (px (nc img) cx j) (px (nr img) cy i) * pixel img i j)%R (nr img) (nc img).
Proof.
  apply rsum2_ext. intros i j Hi Hj. unfold pixel. rewrite (proj2 (in_arrb_spec img i j)) by (split; auto). auto.
Qed.
Lemma pixel_out img i j : ~ in_arr img i j -> pixel img i j = 0%R.
Proof. intros H. unfold pixel. destruct (in_arrb img i j) eqn:E; auto. apply in_arrb_spec in E. contradiction. Qed.
Lemma spot_mirror img hx hy r ns u v : point_symmetric img hx hy -> 0 < ns ->
  spot_val img r ns (IZR hx / 2 + u) (IZR hy / 2 + v) = spot_val img r ns (IZR hx / 2 - u) (IZR hy / 2 - v).
Proof.
  intros S Hn. rewrite !spot_val_pixel. unfold rsum2.
  set (cr := 2 * (nr img / 2) + hy). set (cc := 2 * (nc img / 2) + hx).
  set (f := fun i j => (cov r ns (px (nc img) (IZR hx / 2 - u) j) (px (nr img) (IZR hy / 2 - v) i) * pixel img i j)%R).
  change (rsum (fun i => rsum (fun j => (cov r ns (px (nc img) (IZR hx / 2 + u) j) (px (nr img) (IZR hy / 2 + v) i) * pixel img i j)%R) (nc img)) (nr img)
    = rsum (fun i => rsum (f i) (nc img)) (nr img)).
  assert (O : forall i j, ~ in_arr img i j -> f i j = 0%R) by (intros i j N; unfold f; rewrite pixel_out by auto; ring).
  assert (O' : forall i j, ~ in_arr img (cr - i) (cc - j) -> f i j = 0%R).
  { intros i j N. unfold f. rewrite (S i j). fold cr cc. rewrite pixel_out by auto. ring. }
  rewrite <- (rsum_reflect (fun i => rsum (f i) (nc img)) (nr img) cr).
  - apply rsum_ext. intros i Hi. rewrite <- (rsum_reflect (f (cr - i)) (nc img) cc).
    + apply rsum_ext. intros j Hj. unfold f. rewrite (S i j). fold cr cc. f_equal. rewrite <- cov_mirror by auto. f_equal; unfold px, cc, cr;
        rewrite !minus_IZR, plus_IZR, mult_IZR; field.
    + intros k N. apply O. intros [_ Q]. auto.
    + intros k N. apply O'. intros [_ Q]. auto.
  - intros k N. apply rsum_all_zero. intros j Hj. apply O. intros [Q _]. auto.
  - intros k N. apply rsum_all_zero. intros j Hj. apply O'. intros [Q _]. auto.
Qed.
Lemma pairs_mirror img hx hy r ns sep l u v : point_symmetric img hx hy -> 0 < ns ->
  pairs_val img r ns sep (IZR hx / 2 + u) (IZR hy / 2 + v) l = pairs_val img r ns sep (IZR hx / 2 - u) (IZR hy / 2 - v) l.
Proof.
  intros S Hn. induction l as [|a l IH]; [reflexivity|]. cbn [pairs_val]. rewrite IH. 
  set (p := (sep * cos (deg a))%R). set (q := (sep * sin (deg a))%R).
  replace (IZR hx / 2 + u + p)%R with (IZR hx / 2 + (u + p))%R by ring. replace (IZR hy / 2 + v + q)%R with (IZR hy / 2 + (v + q))%R by ring.
  replace (IZR hx / 2 + u - p)%R with (IZR hx / 2 + (u - p))%R by ring. replace (IZR hy / 2 + v - q)%R with (IZR hy / 2 + (v - q))%R by ring.
  rewrite !(spot_mirror img hx hy) by auto.
  replace (IZR hx / 2 - (u + p))%R with (IZR hx / 2 - u - p)%R by ring. replace (IZR hy / 2 - (v + q))%R with (IZR hy / 2 - v - q)%R by ring.
  replace (IZR hx / 2 - (u - p))%R with (IZR hx / 2 - u + p)%R by ring. replace (IZR hy / 2 - (v - q))%R with (IZR hy / 2 - v + q)%R by ring.
  ring.
Qed.
Lemma star_at_guess lstsq img hx hy tv t : is_lstsq_oracle lstsq -> describes_spots "spotSepPix" tv t -> 1 < nc img -> 0 < nr img ->
  2 <= s_steps t -> point_symmetric img hx hy ->
  calc_star_location_from_spots lstsq img (IZR hx / 2) (IZR hy / 2) tv = Err (Custom "QuadraticException") \/
  calc_star_location_from_spots lstsq img (IZR hx / 2) (IZR hy / 2) tv = Ok (0, 0)%R.
Proof.
  intros O D Hc Hr H2 S. rewrite star_read, (read_ok _ _ _ _ D).
  assert (P : (0 < s_radius t)%R /\ 0 < s_sub t /\ (0 < s_step t)%R) by (split; [|split]; apply D). destruct P as (P1 & P2 & P3).
  apply (star_symmetric lstsq O _ (fun x y => pairs_val img (s_radius t) (s_sub t) (s_sep t) (IZR hx / 2 + x) (IZR hy / 2 + y) (s_angles t))); auto; try lra; try lia.
  - intros x y. apply roi_cost_ok; auto.
  - intros u v. rewrite !Rplus_0_l. rewrite (pairs_mirror img hx hy) by auto. f_equal; ring.
Qed.

(** ** The separation search *)
Section Sep.
Variable lstsq : lstsq1_fun.
Hypothesis oracle : is_lstsq_oracle lstsq.
Variables (cost : R -> res R) (G : R -> R) (n : Z) (d : R).
Hypothesis Hcost : forall s, cost s = Ok (G s).
Hypothesis Hn : 0 < n.
Lemma sep_fill s : exists c, fill_vec (fun i => cost (vat (steps_about n d s) i)) 0 (Z.to_nat n) = Ok c /\
  forall i, 0 <= i < n -> c i = G (trial n d s i).
Proof.
  destruct (fill_def (fun i => cost (vat (steps_about n d s) i)) (Z.to_nat n) 0) as [c E]; [intros; rewrite Hcost; eauto|].
  exists c. split; auto. intros i Hi. pose proof (fill_ok _ _ _ _ E i ltac:(lia)) as Q. cbn beta in Q. rewrite Hcost, steps_trial in Q. congruence.
Qed.
Lemma sep_fit s c : (forall i, 0 <= i < n -> c i = G (trial n d s i)) ->
  match find_optimum_1d lstsq (steps_about n d s) (Vec n c) with
  | Ok s' => fitted_sep G n d s s'
  | Err e => e = Custom "QuadraticException"
  end.
Proof.
  intros V. destruct (opt1_result lstsq oracle (steps_about n d s) (Vec n c) eq_refl Hn) as (p2 & p1 & p0 & B & ->).
  destruct (Rlt_dec (Rabs p2) (/ 2 ^ 52)) as [|N]; auto. exists p2, p1, p0. split; [|split; [lra|auto]].
  assert (E : forall a b c', sq_err (Vec n (trial n d s)) (Vec n (fun i => G (trial n d s i))) a b c' = sq_err (steps_about n d s) (Vec n c) a b c').
  { intros. unfold sq_err. cbn [vlen vat steps_about]. apply rsum_ext. intros i Hi. rewrite V by auto.
    change (IZR i * d - (IZR n - 1) / 2 * d + s)%R with (vat (steps_about n d s) i). rewrite steps_trial. auto. }
  intros q2 q1 q0. rewrite !E. apply B.
Qed.
Lemma sep_chain k : forall s, match sep_loop lstsq cost n d false k s with
  | Ok s' => seps_from G n d k s s'
  | Err e => e = Custom "QuadraticException"
  end.
Proof.
  induction k as [|k IH]; intros s; cbn [sep_loop]; [constructor|].
  destruct (sep_fill s) as (c & -> & V). cbn [bind]. pose proof (sep_fit s c V) as Q.
  destruct (find_optimum_1d _ _ _) as [s1|e]; [|exact Q]. cbn [bind]. specialize (IH s1).
  destruct (sep_loop lstsq cost n d false k s1); auto. econstructor; eauto.
Qed.
Lemma sep_found nIter s : 0 < nIter -> match sep_loop lstsq cost n d (1 <? nIter) (Z.to_nat nIter) s with
  | Ok s' => sep_search G n nIter d s s'
  | Err e => e = Custom "QuadraticException"
  end.
Proof.
  intros Hi. unfold sep_search. destruct (Z.eqb_spec nIter 1) as [->|N].
  - change (Z.to_nat 1) with 1%nat. pose proof (sep_chain 1 s) as Q. change (1 <? 1) with false.
    destruct (sep_loop lstsq cost n d false 1 s) as [s'|e]; auto.
    inversion Q; subst. match goal with K : seps_from _ _ _ O _ _ |- _ => inversion K; subst end. auto.
  - replace (1 <? nIter) with true by (symmetry; apply Z.ltb_lt; lia).
    replace (Z.to_nat nIter) with (S (Z.to_nat (nIter - 1))) by lia. cbn [sep_loop].
    destruct (sep_fill s) as (c & -> & V). cbn [bind].
    destruct (argmax2_def (Arr 1 n (fun _ i => c i))) as [b Eb]; [cbn; lia|cbn; lia|]. rewrite Eb. cbn [bind].
    apply argmax2_ok in Eb as (B1 & B2 & B3 & B4). cbn [nr nc at2] in *. rewrite steps_trial.
    pose proof (sep_chain (Z.to_nat (nIter - 1)) (trial n d s (snd b))) as Q.
    destruct (sep_loop lstsq cost n d false _ _) as [s'|e]; auto.
    exists (trial n d s (snd b)). split; [|exact Q]. exists (snd b). split; [auto|]. split; [auto|].
    intros k Hk. rewrite <- !V by auto. split; [apply (B3 0 k); lia|]. intros L. apply (B4 0 k); auto; [lia|]. unfold before. lia.
Qed.
End Sep.
Lemma sep_ok lstsq img xo yo tv t : is_lstsq_oracle lstsq -> describes_spots "spotSepGuessPix" tv t -> 1 < nc img -> 0 < nr img ->
  exists G, (forall s, pairs_flux img (s_radius t) (s_sub t) s xo yo (s_angles t) (G s)) /\
  match calc_spot_separation lstsq img xo yo tv with
  | Ok s => sep_search G (s_steps t) (s_iter t) (s_step t) (s_sep t) s
  | Err e => e = Custom "QuadraticException"
  end.
Proof.
  intros O D Hc Hr. rewrite sep_read, (read_ok _ _ _ _ D).
  assert (P : (0 < s_radius t)%R /\ 0 < s_sub t /\ 0 < s_steps t /\ 0 < s_iter t) by (repeat split; apply D). destruct P as (P1 & P2 & P3 & P4).
  exists (fun s => pairs_val img (s_radius t) (s_sub t) s xo yo (s_angles t)). split; [intros; apply pairs_val_ok, P2|].
  apply sep_found; auto. intros s. apply roi_cost_ok; auto.
Qed.
Lemma sep_inv lstsq img xo yo tv s : calc_spot_separation lstsq img xo yo tv = Ok s ->
  exists t, describes_spots "spotSepGuessPix" tv t /\ (s_angles t <> [] -> 1 < nc img /\ 0 < nr img).
Proof.
  rewrite sep_read. intros H. apply read_inv in H as (t & D & H). exists t. split; auto. intros A.
  destruct (s_angles t) as [|a l]; [contradiction|]. assert (P3 : 0 < s_steps t) by apply D. assert (P4 : 0 < s_iter t) by apply D.
  replace (Z.to_nat (s_iter t)) with (S (Z.to_nat (s_iter t - 1))) in H by lia. cbn [sep_loop] in H. inv_bind H.
  replace (Z.to_nat (s_steps t)) with (S (Z.to_nat (s_steps t - 1))) in E by lia. cbn [fill_vec] in E. inv_bind E.
  eapply roi_cost_dims; eauto.
Qed.

Lemma steps_distinct n d s : 3 <= n -> d <> 0%R -> three_distinct (steps_about n d s).
Proof.
  intros Hn Hd. exists 0, 1, 2. change (vlen (steps_about n d s)) with n. rewrite !steps_trial. unfold trial.
  repeat split; try lia; intros E; apply Hd; lra.
Qed.
Lemma brightest_det G n d s0 s s' : brightest G n d s0 s -> brightest G n d s0 s' -> s = s'.
Proof.
  intros (i & Hi & -> & M) (i' & Hi' & -> & M'). destruct (Z.lt_trichotomy i i') as [L|[->|L]]; auto; exfalso.
  - destruct (M i' Hi') as [A _]. destruct (M' i Hi) as [_ B]. specialize (B L). lra.
  - destruct (M' i Hi) as [A _]. destruct (M i' Hi') as [_ B]. specialize (B L). lra.
Qed.
(** When the fluxes at the separations tried lie on a parabola, its vertex is returned. *)
Lemma sep_exact lstsq img xo yo tv t a b c : is_lstsq_oracle lstsq -> describes_spots "spotSepGuessPix" tv t -> 1 < nc img -> 0 < nr img ->
  3 <= s_steps t ->
  (forall G s0, (forall s, pairs_flux img (s_radius t) (s_sub t) s xo yo (s_angles t) (G s)) ->
     (if Z.eqb (s_iter t) 1 then s0 = s_sep t else brightest G (s_steps t) (s_step t) (s_sep t) s0 \/ s0 = (- b / (2 * a))%R) ->
     forall i, 0 <= i < s_steps t -> let s := trial (s_steps t) (s_step t) s0 i in G s = (a * s ^ 2 + b * s + c)%R) ->
  (/ 2 ^ 52 <= Rabs a)%R -> calc_spot_separation lstsq img xo yo tv = Ok (- b / (2 * a))%R.
Proof.
  intros O D Hc Hr H3 HG Ha. rewrite sep_read, (read_ok _ _ _ _ D).
  assert (P : (0 < s_radius t)%R /\ 0 < s_sub t /\ 0 < s_steps t /\ 0 < s_iter t) by (repeat split; apply D). destruct P as (P1 & P2 & P3 & P4).
  assert (P5 : (0 < s_step t)%R) by apply D.
  set (cost := fun s => roi_cost img (s_radius t) (s_sub t) (s_angles t) s xo yo).
  set (G := fun s => pairs_val img (s_radius t) (s_sub t) s xo yo (s_angles t)).
  assert (HC : forall s, cost s = Ok (G s)) by (intros s; apply roi_cost_ok; auto).
  specialize (HG G). assert (HG' := fun s0 => HG s0 (fun s => pairs_val_ok img _ _ _ _ _ _ P2)). clear HG. rename HG' into HG.
  assert (One : forall s c', (forall i, 0 <= i < s_steps t -> let u := trial (s_steps t) (s_step t) s i in G u = (a * u ^ 2 + b * u + c)%R) ->
    (forall i, 0 <= i < s_steps t -> c' i = G (trial (s_steps t) (s_step t) s i)) ->
    find_optimum_1d lstsq (steps_about (s_steps t) (s_step t) s) (Vec (s_steps t) c') = Ok (- b / (2 * a))%R).
  { intros s c' Q V. rewrite (opt1_exact lstsq O _ _ a b c); auto.
    - destruct (Rlt_dec _ _); [exfalso; lra|reflexivity].
    - apply steps_distinct; auto. lra.
    - intros i Hi. cbn [vlen steps_about] in Hi. rewrite steps_trial. cbn [vat]. rewrite V, Q by auto. reflexivity. }
  assert (Step : forall k s, (forall i, 0 <= i < s_steps t -> let u := trial (s_steps t) (s_step t) s i in G u = (a * u ^ 2 + b * u + c)%R) ->
    sep_loop lstsq cost (s_steps t) (s_step t) false (S k) s = sep_loop lstsq cost (s_steps t) (s_step t) false k (- b / (2 * a))).
  { intros k s Q. cbn [sep_loop]. destruct (sep_fill cost G (s_steps t) (s_step t) HC P3 s) as (c' & -> & V). cbn [bind].
    rewrite (One s c' Q V). reflexivity. }
  destruct (Z.eq_dec (s_iter t) 1) as [E1|N].
  - rewrite E1 in *. change (Z.to_nat 1) with 1%nat. change (1 <? 1) with false. rewrite Step; [reflexivity|]. apply HG. reflexivity.
  - rewrite (proj2 (Z.eqb_neq _ _) N) in HG.
    replace (1 <? s_iter t) with true by (symmetry; apply Z.ltb_lt; lia).
    replace (Z.to_nat (s_iter t)) with (S (S (Z.to_nat (s_iter t - 2)))) by lia. 
    change (sep_loop lstsq cost (s_steps t) (s_step t) true (S (S (Z.to_nat (s_iter t - 2)))) (s_sep t)) with
      (do c0 <- fill_vec (fun i => cost (vat (steps_about (s_steps t) (s_step t) (s_sep t)) i)) 0 (Z.to_nat (s_steps t));
       do s <- (do b0 <- argmax2 (Arr 1 (s_steps t) (fun _ i => c0 i)); Ok (vat (steps_about (s_steps t) (s_step t) (s_sep t)) (snd b0)));
       sep_loop lstsq cost (s_steps t) (s_step t) false (S (Z.to_nat (s_iter t - 2))) s).
    destruct (sep_fill cost G (s_steps t) (s_step t) HC P3 (s_sep t)) as (c' & E & V). rewrite E. cbn [bind].
    destruct (argmax2_def (Arr 1 (s_steps t) (fun _ i => c' i))) as [bb Eb]; [cbn; lia|cbn; lia|]. rewrite Eb. cbn [bind].
    apply argmax2_ok in Eb as (B1 & B2 & B3 & B4). cbn [nr nc at2] in *. rewrite steps_trial.
    rewrite Step.
    + generalize (Z.to_nat (s_iter t - 2)). induction n as [|n IH]; [reflexivity|]. rewrite Step; [exact IH|]. apply HG. auto.
    + apply HG. left. exists (snd bb). split; [auto|]. split; [auto|].
      intros k Hk. rewrite <- !V by auto. split; [apply (B3 0 k); lia|]. intros L. apply (B4 0 k); auto; [lia|]. unfold before. lia.
Qed.
