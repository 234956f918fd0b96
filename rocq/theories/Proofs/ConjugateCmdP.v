(** Proofs about conv_surf_to_dm_cmd and about the commands flatten returns. *)
From Coq Require Import ZArith Bool List Reals Lra Lia Psatz String.
From Flocq Require Import Core.
From Verif.Base Require Import Py Arr Vec Sums Lstsq.
From Verif.Model Require Import PadCrop Math Noll Fits Fresnel Dm Conjugate.
From Verif.Spec Require Import MathSpec ZernikeSpec DmSpec FitsSpec ConjugateSpec.
From Verif.Proofs Require Import PadCropP ZernP FitsP DmP MathP DarkHoleP ConjugateP.
Import ListNotations.
Open Scope Z_scope.

(** ** conv_surf_to_dm_cmd *)
Lemma surf_axis_eq n p i : surf_axis n p i = (IZR (i - n / 2) / p)%R.
Proof.
  unfold surf_axis. pose proof (Z.div_mod n 2 ltac:(lia)) as D. rewrite minus_IZR.
  destruct (Z.eqb_spec (n mod 2) 0) as [E|E].
  - f_equal. rewrite D at 1. rewrite E, Z.add_0_r, mult_IZR. field.
  - assert (M : n mod 2 = 1) by (pose proof (Z.mod_pos_bound n 2); lia).
    f_equal. rewrite D at 1. rewrite M, plus_IZR, mult_IZR. field.
Qed.
Definition conv_grid (ops : conv_ops) (surf : arr R) (dm : dm_config) : arr R :=
  let s := co_rotate ops (if c_flipx dm then fliplr surf else surf) (c_thact dm) in
  Arr (c_nact dm) (c_nact dm) (fun r c =>
    co_bispline ops (surf_axis (nr s) (c_ppact_cy dm)) (surf_axis (nc s) (c_ppact_cx dm)) s
      (- (IZR (c_nact dm) - 1) / 2 + IZR r + c_dy dm / c_ppact_cy dm)%R
      (- (IZR (c_nact dm) - 1) / 2 + IZR c + c_dx dm / c_ppact_cx dm)%R).
Lemma conv_inv ops surf dm h : conv_surf_to_dm_cmd ops surf dm = Ok h ->
  (0 < c_pitch dm)%R /\ (0 < c_ppact_cx dm)%R /\ (0 < c_ppact_cy dm)%R /\ 0 < c_nact dm /\ (0 < c_ppact_d dm)%R /\
  nr (c_inf dm) = nc (c_inf dm) /\ nr h = c_nact dm /\ nc h = c_nact dm /\
  exists A, build_prefilter (co_spline2 ops) (c_nact dm) (c_nact dm) (c_inf dm) (c_ppact_d dm) = Ok A /\
    fit_surf_to_dm (co_solve ops) (conv_grid ops surf dm) A = Ok h.
Proof.
  unfold conv_surf_to_dm_cmd. intros H.
  apply guard_ok in H as [G1 H]. apply guard_ok in H as [G2 H]. apply guard_ok in H as [G3 H].
  apply guard_ok in H as [G4 H]. apply guard_ok in H as [G5 H]. apply guard_ok in H as [G6 H].
  cbv zeta in H. apply guard_ok in H as [G7 H].
  apply pos_real_iff in G1, G2, G3, G5. apply Z.ltb_lt in G4. apply Z.eqb_eq in G6.
  apply bind_ok in H as (A & EA & H). cbn [nr nc] in EA.
  replace (c_pitch dm / (c_pitch dm / c_ppact_d dm))%R with (c_ppact_d dm) in EA by (field; lra).
  do 6 (split; [auto|]).
  assert (S : nr h = c_nact dm /\ nc h = c_nact dm).
  { unfold fit_surf_to_dm in H. apply guard_ok in H as [_ H]. injection H as <-. auto. }
  destruct S. do 2 (split; [auto|]). exists A. split; auto.
Qed.
Lemma conv_def ops surf dm : (0 < c_pitch dm)%R -> (0 < c_ppact_cx dm)%R -> (0 < c_ppact_cy dm)%R ->
  0 < c_nact dm -> (0 < c_ppact_d dm)%R -> nr (c_inf dm) = nc (c_inf dm) ->
  (c_ppact_d dm = 1%R \/ 4 <= nr (c_inf dm)) -> (forall a t, nr (co_rotate ops a t) = nr a /\ nc (co_rotate ops a t) = nc a) ->
  4 <= nr surf -> 4 <= nc surf -> exists h, conv_surf_to_dm_cmd ops surf dm = Ok h.
Proof.
  intros P1 P2 P3 P4 P5 P6 P7 Rs L1 L2. unfold conv_surf_to_dm_cmd.
  rewrite !guard_true by (apply pos_real_iff; auto). rewrite guard_true by (apply Z.ltb_lt; auto).
  rewrite guard_true by (apply pos_real_iff; auto). rewrite guard_true by (apply Z.eqb_eq; auto).
  cbv zeta. rewrite guard_true.
  2:{ rewrite (proj1 (Rs _ _)), (proj2 (Rs _ _)). rewrite andb_true_iff, !Z.leb_le. destruct (c_flipx dm); cbn; auto. }
  replace (c_pitch dm / (c_pitch dm / c_ppact_d dm))%R with (c_ppact_d dm) by (field; lra). cbn [nr nc].
  unfold build_prefilter. rewrite !guard_true by (apply Z.ltb_lt; auto).
  rewrite guard_true by (apply pos_real_iff; auto). unfold resample_inf_func.
  rewrite guard_true by (apply pos_real_iff; auto). rewrite guard_true by (apply pos_real_iff; lra).
  destruct (Req_EM_T (c_ppact_d dm) 1) as [_|N].
  - cbn [bind]. apply fit_defined. reflexivity.
  - rewrite guard_true by (rewrite andb_true_iff, !Z.leb_le; destruct P7; lia || contradiction).
    cbn [bind]. apply fit_defined. reflexivity.
Qed.

(** The command reproduces the sampled surface at every actuator. *)
Lemma conv_grid_ok ops surf dm h k : is_solver (co_solve ops) -> conv_surf_to_dm_cmd ops surf dm = Ok h ->
  (forall A, build_prefilter (co_spline2 ops) (c_nact dm) (c_nact dm) (c_inf dm) (c_ppact_d dm) = Ok A ->
     nonsingular (sdim A) (sat A)) ->
  resample_inf_func (co_spline2 ops) (c_inf dm) (c_ppact_d dm) 1 = Ok k ->
  nr k mod 2 = 1 -> nc k mod 2 = 1 -> point_symmetric k ->
  forall r c, 0 <= r < c_nact dm -> 0 <= c < c_nact dm -> dm_surface k h r c = at2 (conv_grid ops surf dm) r c.
Proof.
  intros Hs H Ns Rk O1 O2 Sy r c Hr Hc. apply conv_inv in H as (_ & _ & _ & _ & _ & _ & _ & _ & A & EA & F).
  destruct (fit_symmetric _ _ (conv_grid ops surf dm) _ _ _ _ _ Hs EA (Ns A EA) Rk O1 O2 Sy F) as (_ & _ & V).
  apply V. split; auto.
Qed.
Lemma conv_sample ops surf dm h k : is_solver (co_solve ops) -> conv_surf_to_dm_cmd ops surf dm = Ok h ->
  (forall A, build_prefilter (co_spline2 ops) (c_nact dm) (c_nact dm) (c_inf dm) (c_ppact_d dm) = Ok A ->
     nonsingular (sdim A) (sat A)) ->
  resample_inf_func (co_spline2 ops) (c_inf dm) (c_ppact_d dm) 1 = Ok k ->
  nr k mod 2 = 1 -> nc k mod 2 = 1 -> point_symmetric k ->
  c_thact dm = 0%R -> no_rotation (co_rotate ops) -> grid_spline (co_bispline ops) ->
  forall r c i j, 0 <= r < c_nact dm -> 0 <= c < c_nact dm -> in_arr surf i j ->
   (IZR (i - nr surf / 2) = (IZR r - (IZR (c_nact dm) - 1) / 2) * c_ppact_cy dm + c_dy dm)%R ->
   (IZR (j - nc surf / 2) = (IZR c - (IZR (c_nact dm) - 1) / 2) * c_ppact_cx dm + c_dx dm)%R ->
   dm_surface k h r c = at2 surf i (if c_flipx dm then nc surf - 1 - j else j).
Proof.
  intros Hs H Ns Rk O1 O2 Sy T0 Nr Gs r c i j Hr Hc [Hi Hj] Ei Ej.
  rewrite (conv_grid_ok _ _ _ _ _ Hs H Ns Rk O1 O2 Sy r c Hr Hc).
  apply conv_inv in H as (_ & P1 & P2 & _). unfold conv_grid; cbn [at2]. rewrite T0.
  set (f := if c_flipx dm then fliplr surf else surf). destruct (Nr f) as (R1 & R2 & R3).
  assert (F1 : nr f = nr surf) by (unfold f; destruct (c_flipx dm); reflexivity).
  assert (F2 : nc f = nc surf) by (unfold f; destruct (c_flipx dm); reflexivity).
  set (s := co_rotate ops f 0) in *.
  assert (M : forall n p, (0 < p)%R -> forall k l, k < l -> (surf_axis n p k < surf_axis n p l)%R).
  { intros n p Hp u v Huv. rewrite !surf_axis_eq. apply Rmult_lt_compat_r; [apply Rinv_0_lt_compat; auto|].
    apply IZR_lt. lia. }
  assert (I : in_arr s i j) by (unfold in_arr; rewrite R1, R2, F1, F2; auto).
  assert (Y : surf_axis (nr s) (c_ppact_cy dm) i = (- (IZR (c_nact dm) - 1) / 2 + IZR r + c_dy dm / c_ppact_cy dm)%R).
  { rewrite surf_axis_eq, R1, F1, Ei. field. lra. }
  assert (X : surf_axis (nc s) (c_ppact_cx dm) j = (- (IZR (c_nact dm) - 1) / 2 + IZR c + c_dx dm / c_ppact_cx dm)%R).
  { rewrite surf_axis_eq, R2, F2, Ej. field. lra. }
  rewrite <- Y, <- X. rewrite Gs by auto. rewrite R3 by auto. unfold f. destruct (c_flipx dm); reflexivity.
Qed.

(** ** round trip with dmhtoph *)
Lemma resample_at0 sp inf p k u v : kernel_spline sp -> 0 < p -> nr inf = nc inf -> nr inf mod 2 = 1 -> 0 <= nr inf ->
  resample_inf_func sp inf (IZR p) 1 = Ok k ->
  nr k mod 2 = 1 /\ nc k mod 2 = 1 /\
  at0 k (u + nr k / 2) (v + nc k / 2) = at0 inf ((nr inf - 1) / 2 + u * p) ((nr inf - 1) / 2 + v * p).
Proof.
  intros Ks Hp Sq Od Nn H. assert (Ip : (0 < IZR p)%R) by (apply IZR_lt; auto).
  set (q := (nr inf - 1) / 2) in *.
  assert (Q : nr inf = 2 * q + 1).
  { unfold q. pose proof (Z.div_mod (nr inf) 2 ltac:(lia)) as D. rewrite Od in D.
    replace (nr inf - 1) with (nr inf / 2 * 2) by lia. rewrite Z.div_mul by lia. lia. }
  unfold resample_inf_func in H. apply guard_ok in H as [_ H]. apply guard_ok in H as [_ H].
  destruct (Req_EM_T (IZR p) 1) as [E|N].
  - injection H as <-. apply eq_IZR in E. subst p. split; [auto|]. split; [congruence|].
    rewrite <- Sq. replace (nr inf / 2) with q by (rewrite Q, Z.mul_comm, Z.div_add_l by lia; cbn; lia).
    f_equal; lia.
  - apply guard_ok in H as [_ H]. injection H as <-. unfold resampled_size. rewrite <- Sq. cbn [nr nc].
    set (K := Zfloor (/ 2 * IZR (nr inf) * 1 / IZR p)%R).
    assert (HK : K = q / p).
    { unfold K. apply Zfloor_imp. rewrite Q.
      pose proof (Z.div_mod q p ltac:(lia)) as D. pose proof (Z.mod_pos_bound q p Hp) as B.
      rewrite plus_IZR, mult_IZR.
      assert (D' : (IZR q = IZR p * IZR (q / p) + IZR (q mod p))%R) by (rewrite <- mult_IZR, <- plus_IZR; f_equal; auto).
      assert (B1 : (0 <= IZR (q mod p))%R) by (apply IZR_le; lia).
      assert (B2 : (IZR (q mod p) <= IZR p - 1)%R) by (rewrite <- minus_IZR; apply IZR_le; lia).
      rewrite plus_IZR. split.
      - apply (Rmult_le_reg_r (IZR p)); auto. unfold Rdiv. rewrite Rmult_assoc, Rinv_l by lra. nra.
      - apply (Rmult_lt_reg_r (IZR p)); auto. unfold Rdiv. rewrite Rmult_assoc, Rinv_l by lra. nra. }
    assert (O : forall z : Z, (2 * z + 1) mod 2 = 1) by (intros; rewrite Z.add_comm, Z.mul_comm, Z.mod_add by lia; reflexivity).
    assert (HD : forall z : Z, (2 * z + 1) / 2 = z) by (intros; rewrite Z.mul_comm, Z.div_add_l by lia; cbn; lia).
    split; [auto|]. split; [auto|]. rewrite HD.
    assert (Rg : forall z, 0 <= z + K < 2 * K + 1 <-> 0 <= q + z * p < 2 * q + 1).
    { intros z. rewrite HK. pose proof (Z.div_mod q p ltac:(lia)). pose proof (Z.mod_pos_bound q p Hp). split; intros; nia. }
    unfold at0 at 1. destruct (in_arrb _ (u + K) (v + K)) eqn:B.
    + apply in_arrb_spec in B. destruct B as [B1 B2]. cbn [nr nc] in B1, B2. apply Rg in B1, B2.
      assert (I : in_arr inf (q + u * p) (q + v * p)) by (unfold in_arr; lia).
      rewrite at0_in by auto. cbn [at2]. rewrite <- (Ks (IZR p)) by auto.
      f_equal; rewrite <- ?Sq, Q, !plus_IZR, !mult_IZR, ?plus_IZR; field; lra.
    + apply in_arrb_false in B. rewrite at0_out; auto. intros [I1 I2]. apply B. unfold in_arr; cbn [nr nc].
      rewrite Q in I1. rewrite <- Sq, Q in I2. apply Rg in I1, I2. auto.
Qed.

(** Whole-pixel shifts of the DM. *)
Lemma dmhtoph_shifted ops nrow ncol dmin nact inf ppd (dx dy : Z) fx out : wf inf ->
  no_rotation (sp_rotate ops) -> whole_shift (sp_shift ops) -> interpolates ops ->
  Z.Even ((nact - 1) * ppd) ->
  dmhtoph ops nrow ncol dmin nact inf ppd (IZR ppd) (IZR ppd) (IZR dx) (IZR dy) 0 fx = Ok out ->
  nr out = nrow /\ nc out = ncol /\
  forall i j, in_arr out i j -> 2 * Z.abs (i - nrow / 2) < nact * ppd + nr inf -> 2 * Z.abs (j - ncol / 2) < nact * ppd + nr inf ->
    let m := ((nact - 1) * ppd + nr inf - 1) / 2 in
    at2 out i j = superposition nact ppd dmin inf (m + (i - nrow / 2 - dy))
                    (m + (if fx then - (j - ncol / 2 - dx) else j - ncol / 2 - dx)).
Proof.
  intros W Nr Ws Ip Ev H. apply dmhtoph_ok in H as (A & G & Cr & Cc & Cv & H); auto.
  destruct A as (G1 & G2 & G3 & G4 & G5 & G6 & G7 & G8 & G9 & G10 & G11 & G13).
  cbn zeta in H. rewrite Ropp_0 in H.
  set (s := if fx then _ else _) in H.
  set (nx := nxyres nact (nr inf) ppd (IZR ppd) (IZR ppd)) in *.
  assert (Ppd : (0 < IZR ppd)%R) by (apply IZR_lt; auto).
  assert (Sr : nr s = nx) by (unfold s; destruct fx; reflexivity).
  assert (Sc : nc s = nx) by (unfold s; destruct fx; reflexivity).
  assert (Hnx : nact * ppd + nr inf <= nx).
  { apply le_IZR. eapply Rle_trans; [|apply nxyres_ge]. rewrite Rmax_left by lra.
    pose proof sqrt2_ge1. assert (0 < IZR nact)%R by (apply IZR_lt; auto).
    assert (0 <= IZR (nr inf))%R by (apply IZR_le; auto).
    rewrite plus_IZR, mult_IZR.
    replace (sqrt 2 * (IZR nact + IZR (nr inf) / IZR ppd) * IZR ppd)%R
      with (sqrt 2 * (IZR nact * IZR ppd + IZR (nr inf)))%R by (field; lra).
    assert (0 <= IZR nact * IZR ppd + IZR (nr inf))%R by (apply Rplus_le_le_0_compat; [apply Rmult_le_pos; lra|auto]).
    nra. }
  assert (Onx : nx = 2 * (nx / 2) + 1).
  { pose proof (nxyres_odd nact (nr inf) ppd (IZR ppd) (IZR ppd)) as O. fold nx in O.
    pose proof (Z.div_mod nx 2 ltac:(lia)). lia. }
  destruct (Nr s) as (R1 & R2 & R3). set (t := sp_rotate ops s 0) in *.
  destruct (Ws t dy dx) as (W1 & W2 & W3). set (t' := sp_shift ops t (IZR dy) (IZR dx)) in *.
  assert (Wt : wf t') by (unfold wf; lia).
  destruct (pad_crop_ok t' nrow ncol 0%R Wt G1 G2) as (o & Eo & R & C & V).
  rewrite H in Eo. injection Eo as <-. split; [auto|split; [auto|]].
  intros i j [Hi Hj] Li Lj m. rewrite R in Hi. rewrite C in Hj. rewrite V by auto.
  rewrite W1, W2, R1, R2, Sr, Sc.
  assert (It : in_arr t (i - nrow / 2 + nx / 2) (j - ncol / 2 + nx / 2)) by (unfold in_arr; lia).
  rewrite (proj2 (in_arrb_spec t' _ _)) by (unfold in_arr in *; lia). rewrite W3 by auto.
  pose proof (resampled_pixel ops nact (nr inf) ppd (IZR ppd) (IZR ppd) (carr nact ppd dmin inf) fx
     (i - dy) (j - dx) nrow ncol) as RP. cbn zeta in RP. specialize (RP G3 G4 G13 Ppd Ppd).
  change (resampled ops (design_size nact (nr inf) ppd) ppd (nxyres nact (nr inf) ppd (IZR ppd) (IZR ppd)) (IZR ppd) (IZR ppd)
             (carr nact ppd dmin inf)) with
    (resampled ops (design_size nact (nr inf) ppd) ppd nx (IZR ppd) (IZR ppd) (carr nact ppd dmin inf)) in RP.
  fold s in RP. rewrite Sr, Sc in RP.
  replace (i - nrow / 2 + nx / 2 - dy) with (i - dy - nrow / 2 + nx / 2) by lia.
  replace (j - ncol / 2 + nx / 2 - dx) with (j - dx - ncol / 2 + nx / 2) by lia.
  replace (in_arrb t) with (in_arrb s) by (unfold in_arrb; rewrite R1, R2; reflexivity).
  transitivity (if in_arrb s (i - dy - nrow / 2 + nx / 2) (j - dx - ncol / 2 + nx / 2)
     then at2 s (i - dy - nrow / 2 + nx / 2) (j - dx - ncol / 2 + nx / 2) else 0%R).
  { destruct (in_arrb s _ _) eqn:B; auto. apply R3. apply in_arrb_spec in B. unfold in_arr in *. lia. }
  rewrite RP. clear RP.
  set (n := (nact - 1) * ppd + nr inf) in *. change (design_size nact (nr inf) ppd) with n in *.
  replace (i - dy - nrow / 2) with (i - nrow / 2 - dy) by lia.
  replace (j - dx - ncol / 2) with (j - ncol / 2 - dx) by lia.
  change (if fx then - (j - ncol / 2 - dx) else j - ncol / 2 - dx) with (sgn_col fx (j - ncol / 2 - dx)).
  set (c := sgn_col fx _). set (r := i - nrow / 2 - dy).
  assert (Hm : n = 2 * m + 1).
  { unfold m, n in *. destruct Ev as [e Ev]. rewrite Ev.
    pose proof (Z.div_mod (nr inf) 2 ltac:(lia)).
    replace (2 * e + nr inf - 1) with ((e + nr inf / 2) * 2) by lia.
    rewrite Z.div_mul by lia. lia. }
  assert (Hhw : ((IZR n - 1) / 2 / IZR ppd = IZR m / IZR ppd)%R)
    by (rewrite Hm, plus_IZR, mult_IZR; field; lra).
  rewrite Hhw.
  assert (Q : forall x : Z, (Rabs (IZR x / IZR ppd) <= IZR m / IZR ppd)%R <-> Z.abs x <= m).
  { intros x. unfold Rdiv. rewrite Rabs_mult, (Rabs_pos_eq (/ IZR ppd)) by (left; apply Rinv_0_lt_compat; auto).
    rewrite <- abs_IZR. split; intros HH.
    - apply le_IZR. apply Rmult_le_reg_r with (/ IZR ppd)%R; [apply Rinv_0_lt_compat|]; auto.
    - apply Rmult_le_compat_r; [left; apply Rinv_0_lt_compat; auto|]. apply IZR_le; auto. }
  destruct (Rle_dec _ _) as [Hc|Hc]; rewrite Q in Hc; [destruct (Rle_dec _ _) as [Hr|Hr]; rewrite Q in Hr|].
  - rewrite <- Cv.
    rewrite <- (Ip n ppd (carr nact ppd dmin inf) (m + r) (m + c)) by (auto; lia).
    f_equal; rewrite plus_IZR, Hm, plus_IZR, mult_IZR; field; lra.
  - symmetry. apply superposition_outside; auto. fold n. lia.
  - symmetry. apply superposition_outside; auto. fold n. lia.
Qed.

(** Uniqueness of the command. *)
Lemma surface_unique sp n inf ppa k A x y : build_prefilter sp n n inf ppa = Ok A -> nonsingular (sdim A) (sat A) ->
  resample_inf_func sp inf ppa 1 = Ok k -> nr k mod 2 = 1 -> nc k mod 2 = 1 -> point_symmetric k ->
  nr x = n -> nc x = n -> nr y = n -> nc y = n ->
  (forall r c, 0 <= r < n -> 0 <= c < n -> dm_surface k x r c = dm_surface k y r c) -> aeq x y.
Proof.
  intros B Ns Rk O1 O2 Sy X1 X2 Y1 Y2 H. apply build_prefilter_ok in B as (G1 & _ & G3 & G4 & k' & E & V).
  rewrite Rk in E. injection E as <-.
  assert (F : forall z, nr z = n -> nc z = n ->
     solves (sdim A) (sat A) (fun p => dm_surface k z (p / n) (p mod n)) (fun p => at2 z (p / n) (p mod n))).
  { intros z Z1 Z2 p Hp. rewrite G4 in *. unfold dm_surface. rewrite Z1, Z2.
    assert (D : 0 <= p / n < n /\ 0 <= p mod n < n)
      by (split; [split; [apply Z.div_pos; lia|apply Z.div_lt_upper_bound; lia]|apply Z.mod_pos_bound; lia]).
    set (r := p / n) in *. set (c := p mod n) in *.
    rewrite <- (rsum_flat (fun a b => (at2 z a b * at0 k (r - a + nr k / 2) (c - b + nc k / 2))%R)) by lia.
    apply rsum_ext. intros q Hq. rewrite V by lia. fold r c. rewrite Rmult_comm. f_equal.
    rewrite (symmetric_at0 k (q / n - r) (q mod n - c)) by auto. f_equal; lia. }
  destruct (Ns (fun p => dm_surface k x (p / n) (p mod n))) as [_ U].
  assert (Fy : solves (sdim A) (sat A) (fun p => dm_surface k x (p / n) (p mod n)) (fun p => at2 y (p / n) (p mod n))).
  { intros p Hp. rewrite (F y Y1 Y2 p Hp). rewrite G4 in Hp. symmetry. apply H.
    - split; [apply Z.div_pos; lia|apply Z.div_lt_upper_bound; lia].
    - apply Z.mod_pos_bound; lia. }
  specialize (U _ _ (F x X1 X2) Fy).
  split; [lia|]. split; [lia|]. intros r c [Hr Hc]. rewrite X1 in Hr. rewrite X2 in Hc.
  specialize (U (r * n + c)). cbv beta in U. rewrite G4 in U.
  replace ((r * n + c) / n) with r in U by (apply Z.div_unique with c; lia).
  replace ((r * n + c) mod n) with c in U by (apply Z.mod_unique with r; lia).
  apply U. nia.
Qed.

Section RoundTrip.
Variables (ops : scipy_ops) (cops : conv_ops) (nrow ncol p sx sy : Z) (dmin out : arr R) (dm : dm_config).
Hypothesis Wi : wf (c_inf dm).
Hypothesis Hrot : no_rotation (sp_rotate ops).
Hypothesis Hsh : whole_shift (sp_shift ops).
Hypothesis Hip : interpolates ops.
Hypothesis Hcr : no_rotation (co_rotate cops).
Hypothesis Hgs : grid_spline (co_bispline cops).
Hypothesis Hks : kernel_spline (co_spline2 cops).
Hypothesis Hso : is_solver (co_solve cops).
Hypothesis Hcx : c_ppact_cx dm = IZR p.
Hypothesis Hcy : c_ppact_cy dm = IZR p.
Hypothesis Hpd : c_ppact_d dm = IZR p.
Hypothesis Hdx : c_dx dm = IZR sx.
Hypothesis Hdy : c_dy dm = IZR sy.
Hypothesis Hth : c_thact dm = 0%R.
Local Notation nact := (c_nact dm).
Local Notation inf := (c_inf dm).
Hypothesis Hev : Z.Even ((nact - 1) * p).
Hypothesis Hns : forall A, build_prefilter (co_spline2 cops) nact nact inf (IZR p) = Ok A -> nonsingular (sdim A) (sat A).
Hypothesis Hpt : point_symmetric inf.
Hypothesis Hss : spline_symmetric (co_spline2 cops).
Hypothesis Hout : dmhtoph ops nrow ncol dmin nact inf p (IZR p) (IZR p) (IZR sx) (IZR sy) 0 (c_flipx dm) = Ok out.
Hypothesis Sy : 2 * Z.abs sy < p + nr inf.
Hypothesis Sx : 2 * Z.abs sx < p + nr inf.
Hypothesis By : (nact - 1) * p + 2 * Z.abs sy < nrow.
Hypothesis Bx : (nact - 1) * p + 2 * Z.abs sx < ncol.

Lemma round_trip_at h k r c c' : conv_surf_to_dm_cmd cops out dm = Ok h ->
  resample_inf_func (co_spline2 cops) inf (IZR p) 1 = Ok k ->
  0 <= r < nact -> 0 <= c < nact -> 0 <= c' < nact ->
  (c_flipx dm = false -> c' = c) -> (c_flipx dm = true -> ncol mod 2 = 1 /\ (c' - c) * p = 2 * sx) ->
  dm_surface k h r c = dm_surface k dmin r c'.
Proof.
  intros H Rk Hr Hc Hc' E1 E2. pose proof Hout as D. apply dmhtoph_ok in D as (A & _); auto.
  destruct A as (G1 & G2 & G3 & G4 & _ & _ & G7 & G8 & G9 & G10 & G11 & G13).
  pose proof (dmhtoph_shifted _ _ _ _ _ _ _ _ _ _ _ Wi Hrot Hsh Hip Hev Hout) as (O1 & O2 & V).
  destruct (resample_at0 _ _ _ _ 0 0 Hks G4 G9 G11 G13 Rk) as (K1 & K2 & _).
  destruct (resample_symmetric _ _ _ _ Hss Hpt Rk) as (_ & _ & Ky).
  destruct Hev as [e He].
  set (i := nrow / 2 + (r * p - e) + sy). set (j := ncol / 2 + (c * p - e) + sx).
  pose proof (Z.div_mod nrow 2 ltac:(lia)) as Dr. pose proof (Z.mod_pos_bound nrow 2 ltac:(lia)).
  pose proof (Z.div_mod ncol 2 ltac:(lia)) as Dc. pose proof (Z.mod_pos_bound ncol 2 ltac:(lia)).
  assert (Rb : forall z, 0 <= z < nact -> - e <= z * p - e <= e) by (intros; nia).
  pose proof (Rb r Hr) as Rr. pose proof (Rb c Hc) as Rc. pose proof (Rb c' Hc') as Rc'.
  assert (Hi : 0 <= i < nrow) by (unfold i; lia).
  assert (Hj : 0 <= j < ncol) by (unfold j; lia).
  assert (EE : ((IZR nact - 1) / 2 * IZR p = IZR e)%R).
  { apply (f_equal IZR) in He. rewrite !mult_IZR, minus_IZR in He. lra. }
  rewrite (conv_sample cops out dm h k Hso H ltac:(rewrite Hpd; auto) ltac:(rewrite Hpd; auto) K1 K2 Ky Hth Hcr Hgs r c i j); auto.
  2:{ unfold in_arr; lia. }
  2:{ rewrite O1. unfold i. rewrite Hcy, Hdy.
      replace (nrow / 2 + (r * p - e) + sy - nrow / 2) with (r * p - e + sy) by lia.
      rewrite plus_IZR, minus_IZR, mult_IZR. rewrite <- EE. ring. }
  2:{ rewrite O2. unfold j. rewrite Hcx, Hdx.
      replace (ncol / 2 + (c * p - e) + sx - ncol / 2) with (c * p - e + sx) by lia.
      rewrite plus_IZR, minus_IZR, mult_IZR. rewrite <- EE. ring. }
  rewrite O2. set (q := (nr inf - 1) / 2).
  assert (Q : ((nact - 1) * p + nr inf - 1) / 2 = e + q).
  { unfold q. rewrite He. replace (2 * e + nr inf - 1) with (e * 2 + (nr inf - 1)) by lia. rewrite Z.div_add_l by lia. auto. }
  assert (SP : forall x y, superposition nact p dmin inf (e + q + (r * p - e)) (e + q + (x * p - e)) = dm_surface k dmin r x -> 
     y = e + q + (x * p - e) -> superposition nact p dmin inf (e + q + (r * p - e)) y = dm_surface k dmin r x) by (intros; subst; auto).
  assert (SQ : superposition nact p dmin inf (e + q + (r * p - e)) (e + q + (c' * p - e)) = dm_surface k dmin r c').
  { unfold superposition, dm_surface. rewrite G7, G8. apply rsum2_ext. intros a b Ha Hb. f_equal.
    fold q. destruct (resample_at0 _ _ _ _ (r - a) (c' - b) Hks G4 G9 G11 G13 Rk) as (_ & _ & R).
    rewrite R. f_equal; fold q; ring. }
  set (jj := if c_flipx dm then ncol - 1 - j else j).
  assert (Hjj : 0 <= jj < ncol /\ 2 * Z.abs (jj - ncol / 2) < nact * p + nr inf /\
     (if c_flipx dm then - (jj - ncol / 2 - sx) else jj - ncol / 2 - sx) = c' * p - e).
  { unfold jj. destruct (c_flipx dm).
    - destruct (E2 eq_refl) as [M E]. unfold j. split; [|split]; lia.
    - rewrite (E1 eq_refl). unfold j. split; [|split]; lia. }
  destruct Hjj as (J1 & J2 & J3).
  rewrite V; [|unfold in_arr; lia|unfold i; lia|exact J2]. rewrite Q, J3.
  replace (e + q + (i - nrow / 2 - sy)) with (e + q + (r * p - e)) by (unfold i; lia). exact SQ.
Qed.
Lemma round_trip h : conv_surf_to_dm_cmd cops out dm = Ok h ->
  (c_flipx dm = true -> ncol mod 2 = 1 /\ sx = 0) -> aeq h dmin.
Proof.
  intros H E. pose proof Hout as D. apply dmhtoph_ok in D as (A & _); auto.
  destruct A as (G1 & G2 & G3 & G4 & _ & _ & G7 & G8 & G9 & G10 & G11 & G13).
  pose proof (conv_inv _ _ _ _ H) as (_ & _ & _ & _ & _ & _ & H1 & H2 & A & EA & _). rewrite Hpd in EA.
  pose proof EA as B. apply build_prefilter_ok in B as (_ & _ & _ & _ & k & Rk & _).
  destruct (resample_at0 _ _ _ _ 0 0 Hks G4 G9 G11 G13 Rk) as (K1 & K2 & _).
  destruct (resample_symmetric _ _ _ _ Hss Hpt Rk) as (_ & _ & Ky).
  eapply (surface_unique (co_spline2 cops) nact inf (IZR p) k A); auto.
  intros r c Hr Hc. eapply round_trip_at; eauto. intros F. destruct (E F) as [M ->]. split; auto. lia.
Qed.
End RoundTrip.

(** ** the commands *)
Lemma new_command_same cmd d : nr cmd = nr d -> nc cmd = nc d -> exists o, new_command cmd d = Ok o /\
  nr o = nr cmd /\ nc o = nc cmd /\ forall i j, in_arr cmd i j -> at2 o i j = (at2 cmd i j - at2 d i j)%R.
Proof.
  intros E1 E2. unfold new_command. rewrite E1, E2, !Z.eqb_refl. cbn [orb andb guard bind]. eexists. split; [reflexivity|]. cbn [nr nc at2].
  split; [destruct (nr d =? 1); reflexivity|]. split; [destruct (nc d =? 1); reflexivity|]. intros i j [Hi Hj]. rewrite E1 in Hi. rewrite E2 in Hj.
  assert (P1 : (if nr d =? 1 then 0 else i) = i) by (destruct (Z.eqb_spec (nr d) 1); lia).
  assert (P2 : (if nc d =? 1 then 0 else j) = j) by (destruct (Z.eqb_spec (nc d) 1); lia). rewrite P1, P2. reflexivity.
Qed.
(** Everything but the sizes of the commands. *)
Lemma flatten_inv0 ops cmd1 cmd2 fcm useDMs useFCM high lam amp ph diam xo yo dm1 dm2 p o1 o2 of' coef :
  flatten ops cmd1 cmd2 fcm useDMs useFCM high lam amp ph diam xo yo dm1 dm2 p = Ok (o1, o2, of', coef) ->
  exists s h1 h2 r1 r2 d1 d2,
    flatten_front ops useDMs useFCM high amp ph diam xo yo dm1 dm2 p = Ok s /\ coef = s_coef s /\
    conv_surf_to_dm_cmd (fo_conv ops) (s_surf1 s) dm1 = Ok h1 /\
    conv_surf_to_dm_cmd (fo_conv ops) (s_surf2 s) dm2 = Ok h2 /\
    reassign_dead (c_nact dm1) (c_nact dm2) (c_tie dm1) (c_tie dm2) h1 h2 = Ok (r1, r2) /\
    (0 < lam)%R /\ (0 < diam)%R /\ nr cmd1 = nc cmd1 /\ nr cmd2 = nc cmd2 /\
    c_nact dm1 = c_nact dm2 /\ nr r1 = c_nact dm1 /\ nc r1 = c_nact dm1 /\ nr r2 = c_nact dm2 /\ nc r2 = c_nact dm2 /\
    nr (c_gain dm1) = nr r1 /\ nc (c_gain dm1) = nc r1 /\ nr (c_gain dm2) = nr r2 /\ nc (c_gain dm2) = nc r2 /\
    d1 = Arr (nr r1) (nc r1) (fun i j => at2 r1 i j * lam / (2 * PI) / at2 (c_gain dm1) i j)%R /\
    d2 = Arr (nr r2) (nc r2) (fun i j => at2 r2 i j * lam / (2 * PI) / at2 (c_gain dm2) i j)%R /\
    new_command cmd1 d1 = Ok o1 /\ new_command cmd2 d2 = Ok o2 /\
    fcm_command useFCM fcm (s_coef s) lam (f_focusPerStroke p) (f_strokePerStep p) = Ok of'.
Proof.
  unfold flatten. intros H. apply guard_ok in H as [G1 H]. apply guard_ok in H as [G2 H]. apply Z.eqb_eq in G1, G2.
  apply guard_ok in H as [G3 H]. apply guard_ok in H as [G4 H]. apply pos_real_iff in G3, G4.
  apply bind_ok in H as (s & E1 & H). apply bind_ok in H as (h1 & E2 & H). apply bind_ok in H as (h2 & E3 & H).
  apply bind_ok in H as ([r1 r2] & E4 & H). apply bind_ok in H as (d1 & E5 & H). apply bind_ok in H as (d2 & E6 & H).
  apply bind_ok in H as (n1 & E8 & H). apply bind_ok in H as (n2 & E9 & H). apply bind_ok in H as (f & E7 & H).
  injection H as -> -> -> <-. cbn [fst snd] in *.
  unfold dmh_to_volts in E5, E6. apply guard_ok in E5 as [_ E5]. apply guard_ok in E5 as [G7 E5]. injection E5 as E5.
  apply guard_ok in E6 as [_ E6]. apply guard_ok in E6 as [G8 E6]. injection E6 as E6.
  apply same_shape_iff in G7 as [A5 A6], G8 as [A7 A8].
  pose proof (conv_inv _ _ _ _ E2) as (_ & _ & _ & _ & _ & _ & S1 & S2 & _).
  pose proof (conv_inv _ _ _ _ E3) as (_ & _ & _ & _ & _ & _ & S3 & S4 & _).
  destruct (reassign_ok _ _ _ _ _ _ _ _ S1 S2 S3 S4 E4) as (N & _ & _ & _ & _ & T1 & T2 & T3 & T4 & _).
  exists s, h1, h2, r1, r2, d1, d2. do 18 (split; [auto; congruence|]). split; [symmetry; exact E5|]. split; [symmetry; exact E6|]. auto.
Qed.
Lemma flatten_inv ops cmd1 cmd2 fcm useDMs useFCM high lam amp ph diam xo yo dm1 dm2 p o1 o2 of' coef :
  flatten ops cmd1 cmd2 fcm useDMs useFCM high lam amp ph diam xo yo dm1 dm2 p = Ok (o1, o2, of', coef) ->
  nr cmd1 = c_nact dm1 -> nr cmd2 = c_nact dm2 ->
  exists s h1 h2 r1 r2,
    flatten_front ops useDMs useFCM high amp ph diam xo yo dm1 dm2 p = Ok s /\ coef = s_coef s /\
    conv_surf_to_dm_cmd (fo_conv ops) (s_surf1 s) dm1 = Ok h1 /\
    conv_surf_to_dm_cmd (fo_conv ops) (s_surf2 s) dm2 = Ok h2 /\
    reassign_dead (c_nact dm1) (c_nact dm2) (c_tie dm1) (c_tie dm2) h1 h2 = Ok (r1, r2) /\
    (0 < lam)%R /\ (0 < diam)%R /\
    nr cmd1 = nr r1 /\ nc cmd1 = nc r1 /\ nr cmd2 = nr r2 /\ nc cmd2 = nc r2 /\
    nr (c_gain dm1) = nr r1 /\ nc (c_gain dm1) = nc r1 /\ nr (c_gain dm2) = nr r2 /\ nc (c_gain dm2) = nc r2 /\
    nr o1 = nr cmd1 /\ nc o1 = nc cmd1 /\ nr o2 = nr cmd2 /\ nc o2 = nc cmd2 /\
    (forall i j, in_arr cmd1 i j -> at2 o1 i j = at2 cmd1 i j - at2 r1 i j * lam / (2 * PI) / at2 (c_gain dm1) i j)%R /\
    (forall i j, in_arr cmd2 i j -> at2 o2 i j = at2 cmd2 i j - at2 r2 i j * lam / (2 * PI) / at2 (c_gain dm2) i j)%R /\
    fcm_command useFCM fcm (s_coef s) lam (f_focusPerStroke p) (f_strokePerStep p) = Ok of'.
Proof.
  intros H N1 N2. apply flatten_inv0 in H as (s & h1 & h2 & r1 & r2 & d1 & d2 & E1 & E2 & E3 & E4 & E5 & L & D & Q1 & Q2 & NN & T1 & T2 & T3 & T4 &
    B1 & B2 & B3 & B4 & V1 & V2 & O1 & O2 & F).
  destruct (new_command_same cmd1 d1) as (x1 & X1 & A1 & A2 & A3); [rewrite V1; cbn; congruence..|].
  destruct (new_command_same cmd2 d2) as (x2 & X2 & A4 & A5 & A6); [rewrite V2; cbn; congruence..|].
  rewrite X1 in O1. rewrite X2 in O2. injection O1 as <-. injection O2 as <-.
  exists s, h1, h2, r1, r2. do 19 (split; [auto; congruence|]).
  split; [intros i j I; rewrite A3, V1 by auto; reflexivity|]. split; [intros i j I; rewrite A6, V2 by auto; reflexivity|]. auto.
Qed.

Lemma flatten_dead ops cmd1 cmd2 fcm useDMs useFCM high lam amp ph diam xo yo dm1 dm2 p o1 o2 of' coef :
  flatten ops cmd1 cmd2 fcm useDMs useFCM high lam amp ph diam xo yo dm1 dm2 p = Ok (o1, o2, of', coef) ->
  nr cmd1 = c_nact dm1 -> nr cmd2 = c_nact dm2 ->
  nr o1 = nr cmd1 /\ nc o1 = nc cmd1 /\ nr o2 = nr cmd2 /\ nc o2 = nc cmd2 /\
  c_nact dm1 = c_nact dm2 /\ nc cmd1 = nr cmd1 /\ nc cmd2 = nr cmd2 /\
  exists s h1 h2, flatten_front ops useDMs useFCM high amp ph diam xo yo dm1 dm2 p = Ok s /\
    conv_surf_to_dm_cmd (fo_conv ops) (s_surf1 s) dm1 = Ok h1 /\
    conv_surf_to_dm_cmd (fo_conv ops) (s_surf2 s) dm2 = Ok h2 /\
  forall i j, in_arr cmd1 i j -> at2 (c_gain dm1) i j <> 0%R -> at2 (c_gain dm2) i j <> 0%R ->
    (dead (c_tie dm1) i j -> at2 o1 i j = at2 cmd1 i j) /\
    (dead (c_tie dm2) i j -> at2 o2 i j = at2 cmd2 i j) /\
    (~ (dead (c_tie dm1) i j /\ dead (c_tie dm2) i j) ->
      ((at2 cmd1 i j - at2 o1 i j) * at2 (c_gain dm1) i j + (at2 cmd2 i j - at2 o2 i j) * at2 (c_gain dm2) i j
       = (at2 h1 i j + at2 h2 i j) * lam / (2 * PI)))%R /\
    (~ dead (c_tie dm1) i j -> ~ dead (c_tie dm2) i j ->
      (at2 cmd1 i j - at2 o1 i j) * at2 (c_gain dm1) i j = at2 h1 i j * lam / (2 * PI) /\
      (at2 cmd2 i j - at2 o2 i j) * at2 (c_gain dm2) i j = at2 h2 i j * lam / (2 * PI))%R.
Proof.
  intros H M1 M2. apply flatten_inv in H as (s & h1 & h2 & r1 & r2 & E1 & _ & E2 & E3 & E4 & L & _ &
    A1 & A2 & A3 & A4 & B1 & B2 & B3 & B4 & C1 & C2 & C3 & C4 & V1 & V2 & _); auto.
  pose proof (conv_inv _ _ _ _ E2) as (_ & _ & _ & _ & _ & _ & S1 & S2 & _).
  pose proof (conv_inv _ _ _ _ E3) as (_ & _ & _ & _ & _ & _ & S3 & S4 & _).
  destruct (reassign_ok _ _ _ _ _ _ _ _ S1 S2 S3 S4 E4) as (N & _ & _ & _ & _ & T1 & T2 & T3 & T4 & V).
  do 7 (split; [congruence|]). exists s, h1, h2. do 3 (split; auto). intros i j I G1 G2.
  assert (I' : in_arr h1 i j) by (unfold in_arr in *; lia). destruct (V i j I') as (X1 & X2 & X3 & X4).
  pose proof PI_RGT_0 as P. assert (I2 : in_arr cmd2 i j) by (unfold in_arr in *; lia). rewrite V1, V2 by auto. repeat split.
  - intros D. rewrite X1 by auto. field. repeat split; lra.
  - intros D. rewrite X2 by auto. field. repeat split; lra.
  - intros D. rewrite <- X3 by auto. field. repeat split; lra.
  - destruct (X4 H H0) as [Q1 Q2]. rewrite ?Q1, ?Q2. field. repeat split; lra.
  - destruct (X4 H H0) as [Q1 Q2]. rewrite ?Q1, ?Q2. field. repeat split; lra.
Qed.

Lemma smooth_loop_zero ker mask half wd n : forall s out, 0 < nr s -> 0 < nc s ->
  smooth_loop ker mask half wd n s = Ok out -> zero_arr s -> (forall i j, in_arr s i j -> at2 half i j = 0%R) -> zero_arr out.
Proof.
  induction n as [|n IH]; intros s out Hr Hc H Zs Zh; cbn in H.
  - injection H as <-. auto.
  - apply bind_ok in H as (t & Et & H). apply smooth_ok in Et as [_ (T1 & T2 & T3)]; auto. cbn [nr nc convolve_same] in T1, T2.
    assert (I : forall i j, in_arr (set_where mask half t) i j -> in_arr s i j)
      by (intros i j; unfold in_arr, set_where; cbn [nr nc]; rewrite T1, T2; auto).
    apply IH in H; cbn [nr nc set_where]; auto; try lia.
    intros i j Hij. pose proof (I _ _ Hij) as Hs. cbn [at2 set_where]. destruct (at2 mask i j); auto.
    rewrite T3 by exact Hij. cbn [at2 convolve_same]. apply rsum2_all_zero. intros u v _ _.
    unfold at0. destruct (in_arrb s _ _) eqn:B; [|ring]. rewrite Zs by (apply in_arrb_spec; auto). ring.
Qed.
Lemma desired_zero ker high nIter n crop cx cy phase surf : wf phase -> (forall i j, at2 phase i j = 0%R) ->
  desired_surface ker high nIter n crop cx cy phase = Ok surf -> zero_arr surf.
Proof.
  intros W Zp H. unfold desired_surface in H. apply bind_ok in H as (ph0 & E0 & H).
  apply pad_crop_inv in E0; auto. destruct E0 as (h & w & Ehw & Hh & Hw & R1 & R2 & V). injection Ehw as <- <-.
  assert (Z0 : forall i j, in_arr ph0 i j -> at2 ph0 i j = 0%R).
  { intros i j [Hi Hj]. rewrite V by lia. destruct (in_arrb phase _ _); auto. }
  destruct (select crop ph0) as [|v0 vs] eqn:Es; [discriminate|].
  destruct (select_min_max _ _ _ _ Es) as [[(i1 & j1 & I1 & _ & M1) _] [(i2 & j2 & I2 & _ & M2) _]].
  rewrite Z0 in M1, M2 by auto. rewrite <- M1, <- M2 in H.
  set (half := amap _ ph0) in H.
  assert (Zh : zero_arr half).
  { intros i j I. unfold half; cbn [at2 amap]. rewrite Z0 by exact I. rewrite clip_in by lra. lra. }
  destruct high.
  - eapply smooth_loop_zero; [| |exact H| |]; auto; cbn; lia.
  - injection H as <-. auto.
Qed.
Lemma conv_zero ops surf dm h : is_solver (co_solve ops) -> keeps_zero ops ->
  (forall A, build_prefilter (co_spline2 ops) (c_nact dm) (c_nact dm) (c_inf dm) (c_ppact_d dm) = Ok A ->
     nonsingular (sdim A) (sat A)) ->
  zero_arr surf -> conv_surf_to_dm_cmd ops surf dm = Ok h -> zero_arr h.
Proof.
  intros Hs [K1 K2] Ns Zs H. apply conv_inv in H as (_ & _ & _ & _ & _ & _ & H1 & H2 & A & EA & F).
  pose proof (build_prefilter_ok _ _ _ _ _ _ EA) as (N & _ & _ & D & _).
  assert (Zf : zero_arr (if c_flipx dm then fliplr surf else surf)).
  { destruct (c_flipx dm); auto. intros i j [Hi Hj]. cbn in *. apply Zs. split; lia. }
  unfold fit_surf_to_dm in F. apply guard_ok in F as [_ F]. injection F as <-. cbn [nr nc conv_grid] in *.
  set (n := c_nact dm) in *. intros r c [Hr Hc]. cbn [nr nc at2] in *.
  match goal with |- co_solve ops ?a ?b ?v ?k = _ => set (bb := v) end.
  pose proof (Hs _ _ bb (Ns A EA)) as S.
  destruct (Ns A EA bb) as [_ U]. rewrite (U _ (fun _ => 0%R) S); auto.
  - intros i Hi. rewrite (rsum_ext _ (fun _ => 0%R)) by (intros; ring). rewrite rsum_all_zero by auto.
    unfold bb. symmetry. apply K2. apply K1. auto.
  - rewrite D. nia.
Qed.
Lemma flatten_no_dms ops cmd1 cmd2 fcm useFCM high lam amp ph diam xo yo dm1 dm2 p o1 o2 of' coef :
  flatten ops cmd1 cmd2 fcm false useFCM high lam amp ph diam xo yo dm1 dm2 p = Ok (o1, o2, of', coef) ->
  nr cmd1 = c_nact dm1 -> nr cmd2 = c_nact dm2 ->
  is_solver (co_solve (fo_conv ops)) -> keeps_zero (fo_conv ops) ->
  (forall dm A, dm = dm1 \/ dm = dm2 ->
     build_prefilter (co_spline2 (fo_conv ops)) (c_nact dm) (c_nact dm) (c_inf dm) (c_ppact_d dm) = Ok A ->
     nonsingular (sdim A) (sat A)) ->
  (forall i j, in_arr (c_gain dm1) i j -> at2 (c_gain dm1) i j <> 0 /\ at2 (c_gain dm2) i j <> 0)%R ->
  aeq o1 cmd1 /\ aeq o2 cmd2.
Proof.
  intros H M1 M2 Hs Kz Ns Hg. apply flatten_inv in H as (s & h1 & h2 & r1 & r2 & E1 & _ & E2 & E3 & E4 & L & _ &
    A1 & A2 & A3 & A4 & B1 & B2 & B3 & B4 & C1 & C2 & C3 & C4 & V1 & V2 & _); auto.
  pose proof (front_inv _ _ _ _ _ _ _ _ _ _ _ _ _ E1) as (ai & v & _ & _ & _ & _ & _ & _ & _ & P & Q & _ & D1 & D2).
  specialize (Q eq_refl). unfold dm_phases in P. injection P as P1 P2.
  assert (Z1 : zero_arr h1).
  { eapply (conv_zero (fo_conv ops) _ dm1); [auto|auto|intros A; apply Ns; auto| |exact E2].
    refine (desired_zero _ _ _ _ _ _ _ _ _ _ _ D1); rewrite P1; [split; cbn; tauto|intros; reflexivity]. }
  assert (Z2 : zero_arr h2).
  { eapply (conv_zero (fo_conv ops) _ dm2); [auto|auto|intros A; apply Ns; auto| |exact E3].
    refine (desired_zero _ _ _ _ _ _ _ _ _ _ _ D2); rewrite P2; [split; cbn; tauto|intros; reflexivity]. }
  pose proof (conv_inv _ _ _ _ E2) as (_ & _ & _ & _ & _ & _ & S1 & S2 & _).
  pose proof (conv_inv _ _ _ _ E3) as (_ & _ & _ & _ & _ & _ & S3 & S4 & _).
  destruct (reassign_ok _ _ _ _ _ _ _ _ S1 S2 S3 S4 E4) as (N & _ & _ & _ & _ & T1 & T2 & T3 & T4 & V).
  assert (R0 : forall i j, in_arr h1 i j -> at2 r1 i j = 0%R /\ at2 r2 i j = 0%R).
  { intros i j I. destruct (V i j I) as (X1 & X2 & X3 & X4).
    assert (h1z : at2 h1 i j = 0%R) by auto. assert (h2z : at2 h2 i j = 0%R) by (apply Z2; unfold in_arr in *; lia).
    rewrite h1z, h2z in *. unfold dead in *.
    destruct (Z.eq_dec (at2 (c_tie dm1) i j) (-1)), (Z.eq_dec (at2 (c_tie dm2) i j) (-1)).
    - auto.
    - rewrite X1 in * by auto. split; auto. specialize (X3 ltac:(tauto)). lra.
    - rewrite X2 in * by auto. split; auto. specialize (X3 ltac:(tauto)). lra.
    - auto. }
  pose proof PI_RGT_0 as P.
  split; (split; [lia|]; split; [lia|]); intros i j I.
  - rewrite V1 by (unfold in_arr in *; lia). rewrite (proj1 (R0 i j ltac:(unfold in_arr in *; lia))).
    destruct (Hg i j ltac:(unfold in_arr in *; lia)). field. lra.
  - rewrite V2 by (unfold in_arr in *; lia). rewrite (proj2 (R0 i j ltac:(unfold in_arr in *; lia))).
    destruct (Hg i j ltac:(unfold in_arr in *; lia)). field. lra.
Qed.
Lemma flatten_fcm ops cmd1 cmd2 fcm useDMs useFCM high lam amp ph diam xo yo dm1 dm2 p o1 o2 of' coef :
  flatten ops cmd1 cmd2 fcm useDMs useFCM high lam amp ph diam xo yo dm1 dm2 p = Ok (o1, o2, of', coef) ->
  (useFCM = false -> of' = fcm) /\
  (useFCM = true -> (f_focusPerStroke p * f_strokePerStep p <> 0)%R /\
    (Rabs (IZR of' - (IZR fcm + nth 3 coef 0 * lam / (2 * PI) / f_focusPerStroke p / f_strokePerStep p)) <= / 2)%R).
Proof.
  intros H. apply flatten_inv0 in H as (s & h1 & h2 & r1 & r2 & d1 & d2 & E1 & -> & _ & _ & _ & L & _ & _ & _ & _ & _ & _ & _ & _ & _ & _ & _ & _ & _ & _ & _ & _ & F).
  unfold fcm_command in F. split; intros ->; [congruence|].
  destruct (nth_error (s_coef s) 3) as [z4|] eqn:E; [|discriminate].
  apply nth_error_nth with (d := 0%R) in E. rewrite E.
  destruct (Req_EM_T _ 0) as [|N]; [destruct (Req_EM_T z4 0); discriminate|]. split; auto.
  injection F as <-. rewrite Rabs_minus_sym. apply Znearest_half.
Qed.
Lemma fcm_zero_factor fcm coef lam f s : (f * s = 0)%R -> exists e, fcm_command true fcm coef lam f s = Err e.
Proof.
  intros H. unfold fcm_command. destruct (nth_error coef 3); eauto. destruct (Req_EM_T _ 0); [|contradiction].
  destruct (Req_EM_T r 0); eauto.
Qed.

(** ** When flatten succeeds *)
Lemma split_defined (fcm : bool) maxNoll cs diam h w xo yo : Z.max h w <> 1000000 ->
  (is_ok (gen_split_wfe fcm maxNoll cs diam h w xo yo) <->
   (if fcm then 5 else 4) <= maxNoll /\ (0 < diam)%R /\ 0 < h /\ 0 < w).
Proof.
  intros N. split.
  - intros [o H]. eapply split_inv; eauto.
  - intros (M & D & Hh & Hw).
    destruct (split_ok maxNoll cs diam h w xo yo _ (mode_fun_ex (diam / 2) ltac:(lra)) D Hh Hw N fcm M)
      as (a & b & c & E & _). eexists; eauto.
Qed.
Lemma split_fcm_small maxNoll cs diam h w xo yo : 0 < maxNoll < 4 -> (0 < diam)%R ->
  gen_split_wfe true maxNoll cs diam h w xo yo = Err IndexError.
Proof.
  intros M D. unfold gen_split_wfe. rewrite guard_true by (apply Z.ltb_lt; lia).
  rewrite guard_true by (apply pos_real_iff; auto). cbv zeta.
  replace (nth_error (resize_coef maxNoll cs) 3) with (@None R); [reflexivity|].
  symmetry. apply nth_error_None. rewrite resize_len by lia. lia.
Qed.
Lemma smooth_loop_def ker mask half wd n : forall s, 0 < wd -> 0 < nr s -> 0 < nc s ->
  exists out, smooth_loop ker mask half wd n s = Ok out.
Proof.
  induction n as [|n IH]; intros s Hw Hr Hc; cbn; [eauto|].
  destruct (smooth_def ker s (IZR wd)) as [t E]; auto; [apply IZR_lt; auto|].
  rewrite E. cbn [bind]. apply smooth_ok in E as [_ (T1 & T2 & _)]; auto. cbn in T1, T2.
  apply IH; cbn; lia.
Qed.
Lemma desired_def ker (high : bool) nIter n crop cx cy phase : wf phase -> 0 < n -> nr crop = n -> nc crop = n ->
  some_usable crop -> (high = true -> 0 < ZnearestE (Rmax cx cy)) ->
  exists surf, desired_surface ker high nIter n crop cx cy phase = Ok surf.
Proof.
  intros W Hn C1 C2 (i & j & I & U) Hh. unfold desired_surface.
  destruct (pad_crop_ok phase n n 0%R W Hn Hn) as (p0 & E & R & C & _). rewrite E. cbn [bind].
  destruct (select crop p0) as [|v0 vs] eqn:Es.
  - exfalso. assert (In (at2 p0 i j) (select crop p0)).
    { apply in_select. exists i, j. split; [unfold in_arr in *; lia|auto]. }
    rewrite Es in *. contradiction.
  - destruct high; [|eauto]. apply smooth_loop_def; auto; cbn; lia.
Qed.
Definition dm_ok (dm : dm_config) (n : Z) : Prop :=
  (0 < c_pitch dm)%R /\ (0 < c_ppact_cx dm)%R /\ (0 < c_ppact_cy dm)%R /\ 0 < n /\ c_nact dm = n /\ (0 < c_ppact_d dm)%R /\
  nr (c_inf dm) = nc (c_inf dm) /\ (c_ppact_d dm = 1%R \/ 4 <= nr (c_inf dm)) /\
  nr (c_tie dm) = n /\ nc (c_tie dm) = n /\ nr (c_gain dm) = n /\ nc (c_gain dm) = n.
Lemma flatten_def ops cmd1 cmd2 fcm useDMs (useFCM high : bool) lam amp ph diam xo yo dm1 dm2 p n ampIn use crop :
  let h := map_h dm1 dm2 in let w := map_w dm1 dm2 in let m := ceil_odd (f_arrayExtFac p * diam) in
  dm_ok dm1 n -> dm_ok dm2 n -> nr cmd1 = n -> nc cmd1 = n -> nr cmd2 = n -> nc cmd2 = n ->
  (0 < lam)%R -> (0 < diam)%R -> wf amp -> wf ph -> 0 < h -> 0 < w -> Z.max h w <> 1000000 ->
  (if useFCM then 5 else 4) <= f_maxNoll p -> 0 < f_nIterSmooth p -> 0 < f_nBin p -> (0 < f_arrayExtFac p)%R ->
  pad_crop amp [h; w] 0%R = Ok ampIn -> ampthresh ampIn (f_nBin p) = Ok use ->
  4 <= m -> pad_crop use [m; m] false = Ok crop -> some_usable crop ->
  (high = true -> 0 < ZnearestE (Rmax (c_ppact_cx dm1) (c_ppact_cy dm1)) /\ 0 < ZnearestE (Rmax (c_ppact_cx dm2) (c_ppact_cy dm2))) ->
  (useDMs = false -> 0 <= dm_size (c_nact dm1) (c_ppact_cy dm1) /\ 0 <= dm_size (c_nact dm1) (c_ppact_cx dm1) /\
       0 <= dm_size (c_nact dm2) (c_ppact_cy dm2) /\ 0 <= dm_size (c_nact dm2) (c_ppact_cx dm2)) ->
  (useFCM = true -> f_focusPerStroke p * f_strokePerStep p <> 0)%R ->
  (forall a t, nr (co_rotate (fo_conv ops) a t) = nr a /\ nc (co_rotate (fo_conv ops) a t) = nc a) ->
  exists out, flatten ops cmd1 cmd2 fcm useDMs useFCM high lam amp ph diam xo yo dm1 dm2 p = Ok out.
Proof.
  intros h w m D1 D2 S1 S2 S3 S4 HL Hd Wa Wp Hh Hw HN HM HI HB HE EA EU Hm EC SU HS HD HF HR.
  destruct D1 as (a1 & a2 & a3 & a4 & a5 & a6 & a7 & a8 & a9 & a10 & a11 & a12).
  destruct D2 as (b1 & b2 & b3 & b4 & b5 & b6 & b7 & b8 & b9 & b10 & b11 & b12).
  assert (EF : exists s, flatten_front ops useDMs useFCM high amp ph diam xo yo dm1 dm2 p = Ok s /\
     Z.of_nat (List.length (s_coef s)) = f_maxNoll p /\ nr (s_surf1 s) = m /\ nc (s_surf1 s) = m /\ nr (s_surf2 s) = m /\ nc (s_surf2 s) = m).
  { unfold flatten_front. cbv zeta.
    change (Z.max (dm_size (c_nact dm1) (c_ppact_cy dm1)) (dm_size (c_nact dm2) (c_ppact_cy dm2))) with h.
    change (Z.max (dm_size (c_nact dm1) (c_ppact_cx dm1)) (dm_size (c_nact dm2) (c_ppact_cx dm2))) with w.
    rewrite guard_true by (apply Z.ltb_lt; destruct useFCM; lia).
    rewrite !guard_true by (apply Z.ltb_lt; lia). rewrite guard_true by (apply pos_real_iff; auto).
    destruct (pad_crop_ok ph h w 0%R Wp Hh Hw) as (wfe & Ew & W1 & W2 & _). rewrite Ew. cbn [bind].
    rewrite EA. cbn [bind]. rewrite EU. cbn [bind].
    assert (Sh : nr ampIn = h /\ nc ampIn = w).
    { apply pad_crop_inv in EA; auto. destruct EA as (h' & w' & Q & _ & _ & Q1 & Q2 & _). injection Q as <- <-. auto. }
    pose proof (ampthresh_separates _ _ _ EU) as (U1 & U2 & _).
    unfold fit_zernikes. rewrite guard_true by (apply same_shape_iff; cbn; split; lia).
    rewrite guard_true by (apply Z.ltb_lt; destruct useFCM; lia).
    rewrite guard_true by (destruct (Rlt_dec 0 diam); auto; contradiction). cbn [bind].
    match goal with |- context [gen_split_wfe useFCM (f_maxNoll p) ?c _ _ _ _ _] => set (coef := c) end.
    destruct (split_ok (f_maxNoll p) coef diam h w xo yo _ (mode_fun_ex (diam / 2) ltac:(lra)) Hd Hh Hw HN useFCM HM)
      as (z13 & z4 & z & Ez & _ & _ & _ & _ & z1 & z2 & _).
    rewrite Ez. cbn [bind].
    set (above := above_zmax _ _ _ _ _).
    rewrite guard_true.
    2:{ destruct useDMs; auto. destruct (HD eq_refl) as (q1 & q2 & q3 & q4). cbn. rewrite !andb_true_iff, !Z.leb_le. auto. }
    set (phs := dm_phases _ _ _ _ _ _ _ _ _ _).
    assert (WP : wf (fst phs) /\ wf (snd phs)).
    { unfold phs, dm_phases, wf. destruct useDMs; [destruct high; cbn; lia|].
      destruct (HD eq_refl) as (q1 & q2 & q3 & q4). cbn. auto. }
    fold m. rewrite EC. cbn [bind].
    assert (Sc : nr crop = m /\ nc crop = m).
    { apply pad_crop_inv in EC; [|split; lia]. destruct EC as (h' & w' & Q & _ & _ & Q1 & Q2 & _). injection Q as <- <-. auto. }
    destruct (desired_def (fo_kernel ops) high (f_nIterSmooth p) m crop (c_ppact_cx dm1) (c_ppact_cy dm1) (fst phs))
      as [sf1 E1]; try tauto; try lia.
    destruct (desired_def (fo_kernel ops) high (f_nIterSmooth p) m crop (c_ppact_cx dm2) (c_ppact_cy dm2) (snd phs))
      as [sf2 E2]; try tauto; try lia.
    rewrite E1. cbn [bind]. rewrite E2. cbn [bind].
    eexists. split; [reflexivity|]. cbn [s_coef s_surf1 s_surf2].
    apply surface_ok in E1 as (_ & _ & _ & _ & T1 & T2 & _); try tauto.
    apply surface_ok in E2 as (_ & _ & _ & _ & T3 & T4 & _); try tauto.
    split; auto. unfold coef, zrange. rewrite !map_length, seq_length. destruct useFCM; lia. }
  destruct EF as (s & EF & Lc & T1 & T2 & T3 & T4).
  unfold flatten. rewrite !guard_true by (apply Z.eqb_eq; congruence).
  rewrite !guard_true by (apply pos_real_iff; auto). rewrite EF. cbn [bind].
  destruct (conv_def (fo_conv ops) (s_surf1 s) dm1) as [h1 C1]; auto; try lia.
  destruct (conv_def (fo_conv ops) (s_surf2 s) dm2) as [h2 C2]; auto; try lia.
  rewrite C1. cbn [bind]. rewrite C2. cbn [bind].
  apply conv_inv in C1 as (_ & _ & _ & _ & _ & _ & Q1 & Q2 & _).
  apply conv_inv in C2 as (_ & _ & _ & _ & _ & _ & Q3 & Q4 & _).
  rewrite a5, b5 in *.
  destruct (reassign_def n (c_tie dm1) (c_tie dm2) h1 h2) as [[r1 r2] ER]; auto. rewrite ER. cbn [bind fst snd].
  destruct (reassign_ok _ _ _ _ _ _ _ _ Q1 Q2 Q3 Q4 ER) as (_ & _ & _ & _ & _ & K1 & K2 & K3 & K4 & _).
  unfold dmh_to_volts. rewrite guard_true by (apply pos_real_iff; auto).
  rewrite guard_true by (apply same_shape_iff; lia). cbn [bind].
  rewrite guard_true by (apply pos_real_iff; auto).
  rewrite guard_true by (apply same_shape_iff; lia). cbn [bind].
  match goal with |- context [new_command cmd1 ?d] => destruct (new_command_same cmd1 d) as (x1 & X1 & _); [cbn; lia..|]; rewrite X1 end. cbn [bind].
  match goal with |- context [new_command cmd2 ?d] => destruct (new_command_same cmd2 d) as (x2 & X2 & _); [cbn; lia..|]; rewrite X2 end. cbn [bind].
  unfold fcm_command. destruct useFCM; [|cbn; eauto].
  destruct (nth_error (s_coef s) 3) eqn:E4.
  2:{ apply nth_error_None in E4. lia. }
  destruct (Req_EM_T _ 0) as [X|]; [|cbn; eauto]. exfalso. apply HF; auto.
Qed.

(** ** Sizes of the command maps *)
Lemma new_command_sizes cmd d n : nr cmd = nc cmd -> nr d = n -> nc d = n ->
  (forall e, new_command cmd d = Err e <-> e = ValueError /\ nr cmd <> n /\ nr cmd <> 1 /\ n <> 1).
Proof.
  intros Q D1 D2 e. unfold new_command. rewrite <- Q, D1, D2.
  destruct (Z.eqb_spec (nr cmd) n), (Z.eqb_spec (nr cmd) 1), (Z.eqb_spec n 1); cbn [orb andb guard bind]; split;
    try (intros H; discriminate H); try (intros (_ & A & B & C); tauto); try (intros H; injection H as <-; auto); intros [-> _]; reflexivity.
Qed.
Lemma flatten_sizes ops cmd1 cmd2 fcm useDMs useFCM high lam amp ph diam xo yo dm1 dm2 p o1 o2 of' coef :
  flatten ops cmd1 cmd2 fcm useDMs useFCM high lam amp ph diam xo yo dm1 dm2 p = Ok (o1, o2, of', coef) ->
  nr cmd1 = nc cmd1 /\ nr cmd2 = nc cmd2 /\ c_nact dm1 = c_nact dm2 /\
  (nr cmd1 = c_nact dm1 \/ nr cmd1 = 1 \/ c_nact dm1 = 1) /\ (nr cmd2 = c_nact dm2 \/ nr cmd2 = 1 \/ c_nact dm2 = 1) /\
  nr o1 = (if nr cmd1 =? 1 then c_nact dm1 else nr cmd1) /\ nc o1 = nr o1 /\
  nr o2 = (if nr cmd2 =? 1 then c_nact dm2 else nr cmd2) /\ nc o2 = nr o2.
Proof.
  intros H. apply flatten_inv0 in H as (s & h1 & h2 & r1 & r2 & d1 & d2 & _ & _ & _ & _ & _ & _ & _ & Q1 & Q2 & NN & T1 & T2 & T3 & T4 &
    _ & _ & _ & _ & V1 & V2 & O1 & O2 & _).
  assert (G : forall cmd d n o, nr cmd = nc cmd -> nr d = n -> nc d = n -> new_command cmd d = Ok o ->
    (nr cmd = n \/ nr cmd = 1 \/ n = 1) /\ nr o = (if nr cmd =? 1 then n else nr cmd) /\ nc o = nr o).
  { intros cmd d n o Q D1 D2 E. pose proof (proj2 (new_command_sizes cmd d n Q D1 D2 ValueError)) as X. split.
    - destruct (Z.eq_dec (nr cmd) n), (Z.eq_dec (nr cmd) 1), (Z.eq_dec n 1); auto. rewrite X in E by auto. discriminate E.
    - unfold new_command in E. destruct (_ && _); [|discriminate E]. cbn [guard bind] in E. injection E as <-. cbn [nr nc].
      rewrite <- Q, D1, D2. auto. }
  destruct (G cmd1 d1 (c_nact dm1) o1) as (A1 & A2 & A3); auto; [rewrite V1; auto..|].
  destruct (G cmd2 d2 (c_nact dm2) o2) as (A4 & A5 & A6); auto; [rewrite V2; auto..|].
  do 9 (split; auto).
Qed.
