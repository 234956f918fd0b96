(** Proofs about deformable-mirror registration. *)
From Coq Require Import ZArith Bool List String Reals Lra Lia.
From Flocq Require Import Core.
From Verif.Base Require Import Py Arr Vec Sums Lstsq Trig.
From Verif.Model Require Import Math Noll Fits Shapes PadCrop Dm Yaml DarkHole PsfFit PupilUtil Unwrap Occastro DmReg.
From Verif.Spec Require Import FitsSpec DmSpec DarkHoleSpec PsfFitSpec PupilUtilSpec UnwrapSpec DmRegSpec.
From Verif.Proofs Require Import PadCropP FitsP DmP ShapesP DarkHoleP PsfFitP PupilUtilC PupilUtilL FocalFitP QuadFitP UnwrapP OccastroP.
Import ListNotations.
Open Scope string_scope.
Open Scope Z_scope.

(** ** Usable pixels *)
Lemma of_bool_mask (m : arr bool) : bool_mask (amap of_bool m).
Proof. intros i j _. cbn. destruct (at2 m i j); [right|left]; reflexivity. Qed.
Lemma zero_one_same m : zero_one_of m = amap of_bool m. Proof. reflexivity. Qed.
Lemma of_bool_nz b : of_bool b <> 0%R <-> b = true.
Proof. destruct b; cbn; split; intros; auto; try lra; congruence. Qed.
Lemma flatten_ok lstsq a m out : is_lstsq_oracle lstsq -> same_shape a m = true ->
  remove_piston_tip_tilt lstsq a (amap of_bool m) = Ok out -> flattened m (at2 a) out.
Proof.
  intros O S H. assert (S' : same_shape a (amap of_bool m) = true) by exact S.
  pose proof (ptt_best lstsq O a (amap of_bool m) out) as B.
  destruct (ptt_spec lstsq O a _ S' (of_bool_mask m)) as (o & E & Nr & Nc & Z0 & (p & q & r & P) & _). rewrite H in E. injection E as <-.
  unfold flattened. apply same_shape_iff in S as [S1 S2]. split; [apply same_shape_iff; lia|].
  exists p, q, r. split.
  - intros p' q' r'. rewrite zero_one_same. eapply Rle_trans; [|apply (B p' q' r'); auto; apply of_bool_mask].
    right. apply masked_ext. intros i j I N. rewrite P by auto. reflexivity.
  - intros i j I. destruct (at2 m i j) eqn:M.
    + apply P; [exact I|]. cbn. rewrite M. cbn. lra.
    + apply Z0; [exact I|]. cbn. rewrite M. reflexivity.
Qed.
Lemma mask_ok lstsq amp0 ph0 amp1 ph1 dm d t e : is_lstsq_oracle lstsq ->
  calc_software_mask lstsq amp0 ph0 amp1 ph1 dm d t = Ok e ->
  exists m resid, ampthresh amp0 21 = Ok m /\ flattened m (fun i j => at2 ph1 i j - at2 ph0 i j)%R resid /\
    same_shape e amp0 = true /\
    forall i j, in_arr amp0 i j -> (at2 e i j = true <-> clear_around m resid t d i j).
Proof.
  intros O H. unfold calc_software_mask in H.
  apply guard_ok in H as [G1 H]. apply guard_ok in H as [G2 H]. apply guard_ok in H as [G3 H]. apply guard_ok in H as [G4 H].
  apply guard_ok in H as [G5 H]. apply guard_ok in H as [G6 H]. inv_bind H. inv_bind H. rename v into m, v0 into flat.
  apply Z.leb_le in G5. apply same_shape_iff in G1 as [A1 A2], G3 as [A3 A4].
  destruct (ampthresh_ok _ _ _ E) as (? & ? & ? & ? & _ & _ & _ & _ & _ & _ & _ & N1 & N2 & _).
  apply flatten_ok in E0; auto; [|apply same_shape_iff; cbn; lia].
  exists m, flat. split; auto. split; [exact E0|]. apply erosion_ok in H as (R1 & R2 & H). cbn [nr nc afull] in *.
  split; [apply same_shape_iff; lia|]. intros i j I.
  assert (D2 : (1 + 2 * d) / 2 = d) by (rewrite Z.add_comm, Z.mul_comm, Z.div_add_l by lia; cbn; lia).
  rewrite H by (unfold in_arr in *; cbn; lia). rewrite D2. unfold clear_around. split.
  - intros C a b Ha Hb. specialize (C (a - i + d) (b - j + d)).
    replace (i + (a - i + d) - d) with a in C by ring. replace (j + (b - j + d) - d) with b in C by ring.
    destruct C as [C1 C2]; [split; [split; cbn [nr nc afull fst snd]; lia|reflexivity]|]. cbn [fst snd at2] in C2.
    destruct (Rltb t (Rabs (at2 flat a b))) eqn:L; [discriminate|]. apply Rltb_false in L. split; [split; [exact C1|exact C2]|exact L].
  - intros C k l [[K L] _]. cbn [fst snd nr nc afull] in K, L. destruct (C (i + k - d) (j + l - d)) as [[C1 C2] C3]; try lia.
    split; [exact C1|]. cbn [fst snd at2] in *. rewrite (proj2 (Rltb_false _ _) C3). exact C2.
Qed.
Lemma mask_accepts lstsq amp0 ph0 amp1 ph1 dm d t : is_lstsq_oracle lstsq ->
  (exists e, calc_software_mask lstsq amp0 ph0 amp1 ph1 dm d t = Ok e) <->
  same_shape amp0 ph0 = true /\ same_shape amp0 amp1 = true /\ same_shape amp0 ph1 = true /\ (dm = 1 \/ dm = 2) /\ 0 <= d /\ (0 < t)%R /\
  exists m, ampthresh amp0 21 = Ok m.
Proof.
  intros O. split.
  - intros [e H]. unfold calc_software_mask in H.
    apply guard_ok in H as [G1 H]. apply guard_ok in H as [G2 H]. apply guard_ok in H as [G3 H]. apply guard_ok in H as [G4 H].
    apply guard_ok in H as [G5 H]. apply guard_ok in H as [G6 H]. inv_bind H. 
    apply Z.leb_le in G5. apply Rltb_iff in G6. apply andb_true_iff in G4 as [_ G4]. apply orb_true_iff in G4. rewrite !Z.eqb_eq in G4.
    split; [auto|]. split; [auto|]. split; [apply same_shape_iff in G1, G3; apply same_shape_iff; lia|]. eauto 10.
  - intros (S1 & S2 & S3 & D & Hd & Ht & m & E). unfold calc_software_mask. rewrite S1, S2.
    assert (S4 : same_shape ph0 ph1 = true) by (apply same_shape_iff in S1, S3; apply same_shape_iff; lia). rewrite S4. cbn [guard bind].
    assert (G4 : (0 <? dm) && ((dm =? 1) || (dm =? 2)) = true) by (destruct D as [-> | ->]; reflexivity). rewrite G4.
    rewrite (proj2 (Z.leb_le _ _) Hd), (proj2 (Rltb_iff _ _) Ht). cbn [guard bind]. rewrite E. cbn [bind].
    destruct (ampthresh_ok _ _ _ E) as (? & ? & ? & ? & _ & _ & _ & _ & _ & _ & _ & N1 & N2 & _).
    destruct (ptt_spec lstsq O (amap2 Rminus ph1 ph0) (amap of_bool m)) as (o & Eo & _).
    { apply same_shape_iff in S3. apply same_shape_iff. cbn. lia. }
    { apply of_bool_mask. }
    rewrite Eo. cbn [bind]. apply erosion_total; cbn [nr nc afull]; lia.
Qed.
Lemma mask_rejects lstsq amp0 ph0 amp1 ph1 dm d t e : is_lstsq_oracle lstsq ->
  calc_software_mask lstsq amp0 ph0 amp1 ph1 dm d t = Err e -> e = ValueError.
Proof.
  intros O H. unfold calc_software_mask in H.
  apply guard_err in H as [[_ ->]|[G1 H]]; [auto|]. apply guard_err in H as [[_ ->]|[G2 H]]; [auto|].
  apply guard_err in H as [[_ ->]|[G3 H]]; [auto|]. apply guard_err in H as [[_ ->]|[G4 H]]; [auto|].
  apply guard_err in H as [[_ ->]|[G5 H]]; [auto|]. apply guard_err in H as [[_ ->]|[G6 H]]; [auto|].
  destruct (ampthresh amp0 21) as [m|e'] eqn:E; [|destruct (ampthresh_total amp0 21) as [[? ?]|T]; [congruence|cbn in H; congruence]].
  cbn [bind] in H. destruct (ampthresh_ok _ _ _ E) as (? & ? & ? & ? & _ & _ & _ & _ & _ & _ & _ & N1 & N2 & _).
  apply same_shape_iff in G1, G3. apply Z.leb_le in G5.
  destruct (ptt_spec lstsq O (amap2 Rminus ph1 ph0) (amap of_bool m)) as (o & Eo & _).
  { apply same_shape_iff. cbn. lia. }
  { apply of_bool_mask. }
  rewrite Eo in H. cbn [bind] in H. destruct (erosion_total (Arr (nr m) (nc m) (fun i j => if Rltb t (Rabs (at2 o i j)) then false else at2 m i j)) (afull (1 + 2 * d) (1 + 2 * d) true)) as [z Ez]; [cbn [nr nc afull]; lia|cbn [nr nc afull]; lia|].
  congruence.
Qed.

(** ** Wrapping *)
Lemma wrap_congruent t : congruent t (wrap_angle t).
Proof.
  pose proof PI_RGT_0 as P. set (k := Zceil ((t - PI) / (2 * PI))).
  assert (K : ((t - PI) / (2 * PI) <= IZR k < (t - PI) / (2 * PI) + 1)%R).
  { unfold k. split; [apply Zceil_ub|]. pose proof (Zceil_lb ((t - PI) / (2 * PI))). lra. }
  assert (E : wrap_angle t = (t + 2 * PI * IZR (- k))%R); [|exists (- k); exact E].
  destruct (wrap_cs t) as [C S].
  assert (T : (cos (t + 2 * PI * IZR (- k)) = cos t /\ sin (t + 2 * PI * IZR (- k)) = sin t)%R).
  { pose proof (CSum.cis_2PI (- k)) as Q. unfold CSum.cis in Q. injection Q as Q1 Q2. rewrite cos_plus, sin_plus, Q1, Q2. split; ring. }
  apply sin_cos_inj.
  - apply wrap_range.
  - rewrite opp_IZR. assert (((t - PI) / (2 * PI)) * (2 * PI) = t - PI)%R by (field; lra). nra.
  - destruct T; congruence.
  - destruct T; congruence.
Qed.
Lemma measured_ok lstsq ph0 ph1 usable meas : measured lstsq ph0 ph1 usable = Ok meas -> measured_phase lstsq ph0 ph1 usable meas.
Proof.
  intros H. exists (amap wrap_angle (amap2 Rminus ph1 ph0)). split; [apply same_shape_iff; cbn; auto|]. split; [|exact H].
  intros i j _. cbn. split; [apply wrap_congruent|apply wrap_range].
Qed.

(** ** Grids *)
Lemma fill_mat_inv f cols : forall rows k r, fill_mat f cols k rows = Ok r ->
  forall i j, k <= i < k + Z.of_nat rows -> 0 <= j < Z.of_nat cols -> f i j = Ok (r i j).
Proof.
  induction rows as [|rows IH]; intros k r H i j Hi Hj; [lia|]. cbn [fill_mat] in H. inv_bind H. inv_bind H. injection H as <-.
  destruct (Z.eqb_spec i k) as [->|N]; [apply (fill_ok _ _ _ _ E); lia|]. apply (IH _ _ E0); lia.
Qed.
Lemma grid_argmin n (F : R -> R -> R) u c b : (forall i j, 0 <= i < n -> 0 <= j < n -> c i j = F (u j) (u i)) ->
  argmin2 (Arr n n c) = Ok b -> grid_best F n u (u (snd b)) (u (fst b)).
Proof.
  intros C E. unfold argmin2 in E. apply argmax2_ok in E. cbn in E. destruct E as (I & J & M & L).
  exists (fst b), (snd b). split; [|auto]. split; [auto|]. split; [auto|]. split; intros; rewrite <- !C by auto; auto.
Qed.
Lemma grid_opt lstsq n (F : R -> R -> R) u c x y : is_lstsq_oracle lstsq -> 0 < n ->
  (forall i j, 0 <= i < n -> 0 <= j < n -> c i j = F (u j) (u i)) ->
  find_optimum_2d lstsq (Vec n u) (Vec n u) (Arr n n c) (afull n n 1%R) = Ok (x, y) -> grid_fit F n u x y.
Proof.
  intros O Hn C E. unfold find_optimum_2d, same_shape in E. cbn [vlen afull nr nc] in E. rewrite !Z.eqb_refl in E. cbn [andb guard bind] in E.
  change (afull n n 1%R) with (ones n) in E. rewrite (proj1 (bool_mask_count _ (ones_bool n))) in E.
  unfold reshape_ok in E. rewrite Z.eqb_refl in E. cbn [orb guard bind] in E.
  set (q := lstsq (nonzero_points (ones n)) 6 (quad_basis (Vec n u) (Vec n u)) (fun p => at2 (Arr n n c) (fst p) (snd p))) in E.
  assert (Q : forall d, sse (nonzero_points (ones n)) 6 (quad_basis (Vec n u) (Vec n u)) (fun p => at2 (Arr n n c) (fst p) (snd p)) d =
    quad_fit_err F n u (d 0%Z) (d 1%Z) (d 2%Z) (d 3%Z) (d 4%Z) (d 5%Z)).
  { intros d. unfold sse. rewrite (lsum_ext _ (fun p => (quad2 (d 0%Z) (d 1%Z) (d 2%Z) (d 3%Z) (d 4%Z) (d 5%Z) (u (snd p)) (u (fst p)) -
      c (fst p) (snd p)) ^ 2)%R) by (intros p _; rewrite quad_fitted; auto).
    rewrite (masked_lsum (ones n) (fun i j => (quad2 (d 0%Z) (d 1%Z) (d 2%Z) (d 3%Z) (d 4%Z) (d 5%Z) (u j) (u i) - c i j) ^ 2)%R).
    rewrite ones_masked. apply rsum2_ext. intros i j Hi Hj. rewrite C by auto. auto. }
  exists (q 0), (q 1), (q 2), (q 3), (q 4), (q 5). split.
  { intros a' b' c' p' q' r'. destruct (six_values a' b' c' p' q' r') as (f & <- & <- & <- & <- & <- & <-). rewrite <- !Q. apply O. }
  unfold Rltb, resolution in E.
  destruct (Rlt_dec (Rabs (q 1%Z * q 1%Z - 4 * q 0%Z * q 2%Z)) _) as [|N1]; [discriminate|].
  destruct (Rlt_dec (Rabs (2 * q 2%Z)) _) as [|N2]; [discriminate|]. cbn [orb negb guard bind] in E. injection E as <- <-.
  assert (K : (0 < / 10 ^ 15)%R) by (apply Rinv_0_lt_compat, pow_lt; lra).
  assert (D : (q 1%Z * q 1%Z - 4 * q 0%Z * q 2%Z <> 0)%R) by (intros Q'; rewrite Q', Rabs_R0 in N1; lra).
  assert (c0 : (q 2%Z <> 0)%R) by (intros Q'; rewrite Q', Rmult_0_r, Rabs_R0 in N2; lra).
  split; [intros Q'; apply D; rewrite <- Q'; ring|]. unfold stationary. split; field; auto.
Qed.
Lemma angle_scale f w n i : (f * clock_angle w n i = clock_angle (f * w) n i)%R.
Proof. unfold clock_angle. destruct (n =? 1); [ring|]. unfold Rdiv. ring. Qed.
Lemma offset_vec f omax n : (fun i => f * linspace (- omax) omax n i)%R = clock_angle (f * omax) n.
Proof. apply FunctionalExtensionality.functional_extensionality. intros i. rewrite clock_linspace. apply angle_scale. Qed.
Lemma clock_vec w n : linspace (- w) w n = clock_angle w n.
Proof. apply FunctionalExtensionality.functional_extensionality. intros i. apply clock_linspace. Qed.
Lemma scale_vec m n : linspace (1 - m) (1 + m) n = (fun i => if n =? 1 then (1 - m)%R else (1 - m + 2 * m * IZR i / (IZR n - 1))%R).
Proof.
  apply FunctionalExtensionality.functional_extensionality. intros i. unfold linspace. destruct (n =? 1); [auto|]. unfold Rdiv. ring.
Qed.

Section Search.
Variables (lstsq : lstsq_fun) (lstsq1 : lstsq1_fun).
Hypotheses (O : is_lstsq_oracle lstsq) (O1 : is_lstsq_oracle lstsq1).
Lemma offset_loop_ok cost F n nIter omax shrink : 0 < n -> (forall x y v, cost x y = Ok v -> F x y = v) ->
  forall k iter f x y f' x' y', offset_loop lstsq cost n nIter omax shrink k iter f x y = Ok (f', x', y') ->
  offset_passes F n nIter omax shrink iter k (f * omax) x y (f' * omax) x' y'.
Proof.
  intros Hn HF. induction k as [|k IH]; intros iter f x y f' x' y' H; cbn [offset_loop] in H; [injection H as <- <- <-; constructor|].
  inv_bind H. inv_bind H. destruct v0 as [a b]. apply IH in H. cbn [fst snd] in H. econstructor; [|exact H].
  pose proof (fill_mat_inv _ _ _ _ _ E) as V.
  assert (C : forall i j, 0 <= i < n -> 0 <= j < n -> v i j = F (x + clock_angle (f * omax) n j)%R (y + clock_angle (f * omax) n i)%R).
  { intros i j Hi Hj. specialize (V i j ltac:(lia) ltac:(lia)). cbn [vat] in V. apply HF in V. rewrite clock_linspace, angle_scale, clock_linspace, angle_scale in V. auto. }
  rewrite offset_vec in E0. unfold offset_pass. replace (x + a - x)%R with a by ring. replace (y + b - y)%R with b by ring.
  destruct (Nat.eqb iter 0 && (1 <? nIter)).
  - inv_bind E0. injection E0 as <- <-. cbn [vat]. eapply grid_argmin; [|exact E1]. exact C.
  - eapply grid_opt; eauto.
Qed.
Lemma offset_loop_some cost n nIter omax shrink k iter f x y r : 0 < n -> (0 < k)%nat ->
  offset_loop lstsq cost n nIter omax shrink k iter f x y = Ok r -> exists a b v, cost a b = Ok v.
Proof.
  intros Hn Hk H. destruct k as [|k]; [lia|]. cbn [offset_loop] in H. inv_bind H. pose proof (fill_mat_inv _ _ _ _ _ E 0 0 ltac:(lia) ltac:(lia)) as V.
  do 3 eexists. exact V.
Qed.
Lemma clock_loop_ok cost G n nIter cmax shrink : 0 < n -> (forall c v, cost c = Ok v -> G c = v) ->
  forall k iter c c', clock_loop lstsq1 cost n nIter cmax shrink k iter c = Ok c' -> clock_passes G n nIter cmax shrink iter k c c'.
Proof.
  intros Hn HG. induction k as [|k IH]; intros iter c c' H; cbn [clock_loop] in H; [injection H as <-; constructor|].
  inv_bind H. inv_bind H. apply IH in H. econstructor; [|exact H]. rename v into cv, v0 into d.
  assert (C : forall i, 0 <= i < n -> cv i = G (c + shrink ^ iter * clock_angle cmax n i)%R).
  { intros i Hi. pose proof (fill_ok _ _ _ _ E i ltac:(lia)) as V. cbn [vat] in V. apply HG in V. rewrite clock_linspace, Rplus_comm in V. auto. }
  rewrite clock_vec in E0. unfold clock_pass. destruct (Nat.eqb iter 0 && (1 <? nIter)).
  - inv_bind E0. injection E0 as <-. unfold argmin2 in E1. apply argmax2_ok in E1. cbn in E1. destruct E1 as (I & J & M & L).
    assert (fst v = 0) as I0 by lia. rewrite I0 in *. exists (snd v). split; [|reflexivity].
    split; [lia|]. split; [auto|]. split.
    + intros i' j' Hi Hj. rewrite <- !C by auto. apply (M i' j'); auto.
    + intros i' j' Hi Hj B. rewrite <- !C by auto. apply (L i' j'); auto.
  - destruct (opt1_result lstsq1 O1 (Vec n (clock_angle cmax n)) (Vec n cv)) as (p2 & p1 & p0 & B & R); [reflexivity|exact Hn|].
    rewrite E0 in R. destruct (Rlt_dec (Rabs p2) (/ 2 ^ 52)) as [|N]; [discriminate|]. injection R as ->.
    exists p2, p1, p0. split; [|split; [lra|]].
    + intros q2 q1 q0. specialize (B q2 q1 q0). unfold sq_err in *. cbn [vlen vat] in *.
      eapply Rle_trans; [right|eapply Rle_trans; [exact B|right]]; apply rsum_ext; intros i Hi; rewrite C by auto; auto.
    + unfold Rdiv. ring.
Qed.
Lemma both_loop_ok ocost ccost F G p : 0 < p_noff p -> 0 < p_nclock p ->
  (forall c x y v, ocost c x y = Ok v -> F x y c = v) -> (forall x y c v, ccost x y c = Ok v -> G x y c = v) ->
  forall k f x y c x' y' c', both_loop lstsq lstsq1 ocost ccost p k f x y c = Ok (x', y', c') ->
  rounds F G p k (f * p_omax p) x y c x' y' c'.
Proof.
  intros Hn Hm HF HG. induction k as [|k IH]; intros f x y c x' y' c' H; cbn [both_loop] in H; [injection H as <- <- <-; constructor|].
  inv_bind H. destruct v as [[f1 x1] y1]. inv_bind H. apply IH in H. econstructor; [| |exact H].
  - eapply (offset_loop_ok _ (fun x y => F x y c)); [auto| |exact E]. intros ? ? ?. apply HF.
  - eapply clock_loop_ok; [auto| |exact E0]. intros ? ?. apply HG.
Qed.
Lemma scale_loop_ok cost (D : R -> R -> Prop) F n shrink : 0 < n -> (forall x y v, cost x y = Ok v -> D x y /\ F x y = v) ->
  forall k first m sx sy sx' sy', scale_loop lstsq cost n shrink first k m sx sy = Ok (sx', sy') ->
  scale_passes D F n shrink first k m sx sy sx' sy'.
Proof.
  intros Hn HF. induction k as [|k IH]; intros first m sx sy sx' sy' H; cbn [scale_loop] in H; [injection H as <- <-; constructor|].
  inv_bind H. inv_bind H. destruct v0 as [a b]. apply IH in H. cbn [fst snd] in H. econstructor; [|exact H].
  pose proof (fill_mat_inv _ _ _ _ _ E) as V. rewrite scale_vec in *. cbn [vat] in *.
  set (u := fun i => if n =? 1 then (1 - m)%R else (1 - m + 2 * m * IZR i / (IZR n - 1))%R) in *.
  assert (C : forall i j, 0 <= i < n -> 0 <= j < n -> D (u j * sx)%R (u i * sy)%R /\ v i j = F (u j * sx)%R (u i * sy)%R).
  { intros i j Hi Hj. specialize (V i j ltac:(lia) ltac:(lia)). apply HF in V as [V1 V2]. split; auto. }
  split; [intros i j Hi Hj; apply (C i j); auto|]. exists a, b. split; [|auto].
  destruct first.
  - inv_bind E0. injection E0 as <- <-. apply (grid_argmin n (fun fx fy => F (fx * sx)%R (fy * sy)%R) u v v0); [|exact E1]. intros i j Hi Hj. apply (C i j); auto.
  - eapply (grid_opt lstsq n (fun fx fy => F (fx * sx)%R (fy * sy)%R)); eauto. intros i j Hi Hj. apply (C i j); auto.
Qed.
End Search.

(** ** Files *)
Lemma value_ok {A} (r : res A) a : value_error r = Ok a <-> r = Ok a.
Proof. destruct r; cbn; split; congruence. Qed.
Lemma read_fit_ok v p : read_fit_params v = Ok p <-> describes_fit v p.
Proof.
  unfold read_fit_params, describes_fit, has_int, has_real. split.
  - intros H. do 8 inv_bind H. do 5 inv_bind H. apply guard_ok in H as [G H]. do 3 inv_bind H. injection H as <-. cbn.
    apply (proj1 (value_ok _ _)) in E7, E8, E9, E10, E11, E12, E13, E14. apply (proj1 (int_ok _ _)) in E7, E9, E10, E13, E14. apply (proj1 (real_ok _ _)) in E8, E12.
    apply (proj1 (positive_ok _ _)) in E11. apply (proj1 (item_has _ _ _)) in E, E0, E1, E2, E3, E4, E5, E6.
    apply negb_true_iff, Rltb_false in G. destruct E7, E9, E10, E11, E13, E14. repeat split; eauto.
  - destruct p as [b om nf i s cm nk ik]. cbn.
    intros ((v1 & H1 & I1) & P1 & (v2 & H2 & I2) & (v3 & H3 & I3) & P3 & (v4 & H4 & I4) & P4 & (v5 & H5 & I5) & [P5 P5'] & (v6 & H6 & I6) & (v7 & H7 & I7) & P7 & (v8 & H8 & I8) & P8).
    apply (proj2 (item_has _ _ _)) in H1, H2, H3, H4, H5, H6, H7, H8. rewrite H1, H2, H3, H4, H5, H6, H7, H8. cbn [bind].
    unfold positive_int_v, real_v, positive_v. rewrite (proj2 (int_ok _ _) (conj I1 P1)), (proj2 (int_ok _ _) (conj I3 P3)),
      (proj2 (int_ok _ _) (conj I4 P4)), (proj2 (int_ok _ _) (conj I7 P7)), (proj2 (int_ok _ _) (conj I8 P8)),
      (proj2 (real_ok _ _) I2), (proj2 (real_ok _ _) I6), (proj2 (positive_ok _ _) (conj I5 P5)). cbn [value_error bind].
    rewrite (proj2 (Rltb_false _ _) P5'). reflexivity.
Qed.
Lemma maps_ok amp0 ph0 amp1 ph1 usable dm dV lam : check_maps amp0 ph0 amp1 ph1 usable dm dV lam = Ok tt <-> maps_valid amp0 ph0 amp1 ph1 usable dm dV lam.
Proof.
  unfold check_maps, maps_valid. split.
  - intros H. apply guard_ok in H as [G1 H]. apply guard_ok in H as [G2 H]. apply guard_ok in H as [G3 H]. apply guard_ok in H as [G4 H].
    apply guard_ok in H as [G5 H]. apply guard_ok in H as [G6 H]. unfold guard in H. destruct (Rltb 0 lam) eqn:L; [|discriminate].
    apply Rltb_iff in L. apply Z.eqb_eq in G6. apply andb_true_iff in G5 as [_ G5]. apply orb_true_iff in G5. rewrite !Z.eqb_eq in G5. auto 10.
  - intros (S1 & S2 & S3 & S4 & D & N & L). rewrite S1, S2, S3, S4, (proj2 (Z.eqb_eq _ _) N), (proj2 (Rltb_iff _ _) L).
    destruct D as [-> | ->]; reflexivity.
Qed.
Lemma maps_err amp0 ph0 amp1 ph1 usable dm dV lam e : check_maps amp0 ph0 amp1 ph1 usable dm dV lam = Err e -> e = ValueError.
Proof.
  unfold check_maps. intros H. do 6 (apply guard_err in H as [[_ ->]|[_ H]]; [auto|]). unfold guard in H. destruct (Rltb 0 lam); congruence.
Qed.
Lemma truthy_ok v : counts_as v (truthy v).
Proof.
  unfold counts_as. cbn [In]. destruct v as [|b|z|r|s|l|l]; cbn [truthy]; split; intros H;
    try (destruct H as [H|[H|[H|[H|[H|[H|[H|[]]]]]]]]; try discriminate H; injection H as H); subst; auto 8.
  - destruct (Z.eqb_spec z 0); [subst; auto 8|discriminate].
  - destruct (Req_EM_T r 0); [subst; auto 8|discriminate].
  - destruct (Req_EM_T 0 0); congruence.
  - destruct (String.eqb_spec s ""); [subst; auto 8|discriminate].
  - destruct l; [auto 8|discriminate].
  - destruct l; [auto 8|discriminate].
Qed.
Lemma read_dm_ok getdata dmv k r d : registration_of dmv k = Ok r -> read_dm getdata (fst r) (snd r) = Ok d ->
  describes_dm getdata dmv k d false None /\
  forall fl fv th tv, item (snd r) "flipx" = Ok fv -> counts_as fv fl -> item (snd r) "thact" = Ok tv -> real_scalar_ tv = Ok th ->
    describes_dm getdata dmv k d fl (Some th).
Proof.
  intros R H. unfold registration_of in R. inv_bind R. inv_bind R. inv_bind R. injection R as <-. cbn [fst snd] in *.
  unfold read_dm in H. do 13 inv_bind H. injection H as <-.
  apply (proj1 (item_has _ _ _)) in E, E0, E1, E2, E3, E5, E7, E9, E11, E13.
  apply (proj1 (int_ok _ _)) in E8, E10. apply (proj1 (positive_ok _ _)) in E12, E14. destruct E8, E10, E12, E14.
  unfold describes_dm, has_path, has_int, has_real. cbn [d_gain d_inf d_nact d_ppd d_cx d_cy]. split.
  - exists v0, v1. repeat split; eauto 6.
  - intros fl fv th tv F1 F2 T1 T2. apply (proj1 (item_has _ _ _)) in F1, T1. apply (proj1 (real_ok _ _)) in T2.
    exists v0, v1. repeat split; eauto 6.
Qed.

(** ** The costs *)
Lemma ptt_defined lstsq a b m o : remove_piston_tip_tilt lstsq a m = Ok o -> same_shape b m = true ->
  exists o', remove_piston_tip_tilt lstsq b m = Ok o'.
Proof.
  unfold remove_piston_tip_tilt. intros H S. apply guard_ok in H as [_ H]. apply guard_ok in H as [G _]. rewrite S, G. cbn [guard bind]. eauto.
Qed.
Lemma offset_cost_total lstsq ops usable meas dmrad dm flip n m : wf (d_inf dm) -> shape_preserving ops ->
  (exists a b c v, offset_cost lstsq ops usable meas dmrad dm flip n m a b c = Ok v) ->
  exists F G : R -> R -> R -> R, (forall x y c, wavefront_misfit lstsq ops usable meas dmrad dm flip n m x y c (F x y c)) /\
    (forall x y c, surface_misfit ops usable meas dmrad dm flip n m x y c (G x y c)) /\
    (forall x y c, offset_cost lstsq ops usable meas dmrad dm flip n m c x y = Ok (F x y c)) /\
    (forall x y c, clock_cost ops usable meas dmrad dm flip n m x y c = Ok (G x y c)).
Proof.
  intros W Sp (a & b & c & v & H). unfold offset_cost in H. inv_bind H. inv_bind H.
  pose proof (dmhtoph_shape _ _ _ _ _ _ _ _ _ _ _ _ _ _ W Sp E) as [N1 N2].
  pose proof (dmhtoph_ok _ _ _ _ _ _ _ _ _ _ _ _ _ _ W E) as (A & L & _).
  assert (Dm : forall x y t, exists s, dmhtoph ops n m dmrad (d_nact dm) (d_inf dm) (d_ppd dm) (d_cx dm) (d_cy dm) x y t flip = Ok s)
    by (intros; apply dmhtoph_defined; auto).
  assert (Sh : n = nr usable /\ m = nc usable).
  { unfold remove_piston_tip_tilt in E0. apply guard_ok in E0 as [S _]. apply same_shape_iff in S. cbn in S. lia. }
  exists (fun x y c => match offset_cost lstsq ops usable meas dmrad dm flip n m c x y with Ok v => v | Err _ => 0%R end),
    (fun x y c => match clock_cost ops usable meas dmrad dm flip n m x y c with Ok v => v | Err _ => 0%R end).
  assert (T : forall x y t, exists s w, dmhtoph ops n m dmrad (d_nact dm) (d_inf dm) (d_ppd dm) (d_cx dm) (d_cy dm) x y t flip = Ok s /\
    remove_piston_tip_tilt lstsq (amap (fun v => v * 2)%R s) usable = Ok w).
  { intros x y t. destruct (Dm x y t) as [s Es]. exists s. pose proof (dmhtoph_shape _ _ _ _ _ _ _ _ _ _ _ _ _ _ W Sp Es) as [M1 M2].
    destruct (ptt_defined _ _ (amap (fun v => v * 2)%R s) _ _ E0) as [w Ew]; [apply same_shape_iff; cbn; lia|]. exists w. auto. }
  split; [|split; [|split]].
  - intros x y t. destruct (T x y t) as (s & w & Es & Ew). unfold offset_cost. rewrite Es. cbn [bind]. rewrite Ew. exists s, w. repeat split; auto.
  - intros x y t. destruct (T x y t) as (s & w & Es & Ew). unfold clock_cost. rewrite Es. exists s. repeat split; auto.
  - intros x y t. destruct (T x y t) as (s & w & Es & Ew). unfold offset_cost. rewrite Es. cbn [bind]. rewrite Ew. reflexivity.
  - intros x y t. destruct (T x y t) as (s & w & Es & Ew). unfold clock_cost. rewrite Es. reflexivity.
Qed.
Lemma tc_ok lstsq lstsq1 ops getdata amp0 ph0 amp1 ph1 usable k dV xo yo dmv fitv lam x y c :
  is_lstsq_oracle lstsq -> is_lstsq_oracle lstsq1 -> shape_preserving ops -> (forall v a, getdata v = Ok a -> wf a) ->
  calc_translation_clocking lstsq lstsq1 ops getdata amp0 ph0 amp1 ph1 usable k dV xo yo dmv fitv lam = Ok (x, y, c) ->
  maps_valid amp0 ph0 amp1 ph1 usable k dV lam /\
  exists p dm flip th dmrad meas F G,
    describes_fit fitv p /\ describes_dm getdata dmv k dm flip (Some th) /\
    volts_to_dmh (d_gain dm) dV lam = Ok dmrad /\ measured_phase lstsq ph0 ph1 usable meas /\
    (forall x y c, wavefront_misfit lstsq ops usable meas dmrad dm flip (nr amp0) (nc amp0) x y c (F x y c)) /\
    (forall x y c, surface_misfit ops usable meas dmrad dm flip (nr amp0) (nc amp0) x y c (G x y c)) /\
    rounds F G p (Z.to_nat (p_both p)) (p_omax p) xo yo th x y c.
Proof.
  intros O O1 Sp Wg H. unfold calc_translation_clocking in H. inv_bind H. destruct v. apply maps_ok in E. split; [exact E|].
  inv_bind H. rename v into p. inv_bind H. rename v into r. inv_bind H. rename v into fv. inv_bind H. rename v into dm. inv_bind H. rename v into tv.
  inv_bind H. rename v into th. inv_bind H. rename v into dmrad. inv_bind H. rename v into meas.
  apply read_fit_ok in E0. destruct (read_dm_ok _ _ _ _ _ E1 E3) as [_ D]. specialize (D (truthy fv) fv th tv E2 (truthy_ok fv) E4 E5).
  pose proof E0 as (_ & P1 & _ & _ & P2 & _ & P3 & _ & _ & _ & _ & P4 & _ & P5).
  assert (W : wf (d_inf dm)). { destruct D as (? & ? & _ & _ & _ & (f & _ & Ef) & _). eapply Wg; eauto. }
  assert (T : exists a b c v, offset_cost lstsq ops usable meas dmrad dm (truthy fv) (nr amp0) (nc amp0) a b c = Ok v).
  { destruct (Z.to_nat (p_both p)) as [|kk] eqn:K; [lia|]. cbn [both_loop] in H. inv_bind H. apply offset_loop_some in E8; [|auto|lia].
    destruct E8 as (a & b & v' & V). eauto. }
  destruct (offset_cost_total _ _ _ _ _ _ _ _ _ W Sp T) as (F & G & HF & HG & CF & CG).
  exists p, dm, (truthy fv), th, dmrad, meas, F, G. do 3 (split; [assumption|]). split; [apply measured_ok; auto|]. do 2 (split; [assumption|]).
  eapply (both_loop_ok lstsq lstsq1 O O1 _ _ F G) in H; auto; [rewrite Rmult_1_l in H; exact H| |].
  - intros c' x' y' v V. rewrite CF in V. injection V as <-. reflexivity.
  - intros x' y' c' v V. rewrite CG in V. injection V as <-. reflexivity.
Qed.
Lemma scale_ok lstsq ops getdata amp0 ph0 amp1 ph1 usable k dV dmv fitv lam xo yo cl cx cy :
  is_lstsq_oracle lstsq -> shape_preserving ops -> (forall v a, getdata v = Ok a -> wf a) ->
  calc_scale lstsq ops getdata amp0 ph0 amp1 ph1 usable k dV dmv fitv lam xo yo cl = Ok (cx, cy) ->
  maps_valid amp0 ph0 amp1 ph1 usable k dV lam /\
  exists m n nIter s dm dmrad meas F sx sy,
    has_real fitv "maxDeltaScaleFac" m /\ has_int fitv "nScale" n /\ 0 < n /\ has_int fitv "nIter" nIter /\ 0 < nIter /\
    has_real fitv "shrinkFac" s /\ (0 < s <= 1)%R /\
    describes_dm getdata dmv k dm false None /\
    volts_to_dmh (d_gain dm) dV lam = Ok dmrad /\ measured_phase lstsq ph0 ph1 usable meas /\
    scale_passes (fun sx sy => scale_misfit lstsq ops usable meas dmrad dm (nr amp0) (nc amp0) xo yo cl sx sy (F sx sy)) F n s (1 <? nIter)
      (Z.to_nat nIter) m 1 1 sx sy /\
    cx = (sx * d_cx dm)%R /\ cy = (sy * d_cy dm)%R.
Proof.
  intros O Sp Wg H. unfold calc_scale in H. inv_bind H. destruct v. apply maps_ok in E. split; [exact E|].
  do 8 inv_bind H. apply guard_ok in H as [G H]. inv_bind H. rename v7 into r. inv_bind H. rename v7 into dm. inv_bind H. rename v7 into dmrad.
  inv_bind H. rename v7 into meas. inv_bind H. destruct v7 as [sx sy]. injection H as <- <-.
  apply (proj1 (item_has _ _ _)) in E0, E1, E2, E3. apply (proj1 (value_ok _ _)) in E4, E5, E6, E7.
  apply (proj1 (real_ok _ _)) in E4. apply (proj1 (int_ok _ _)) in E5, E6. apply (proj1 (positive_ok _ _)) in E7.
  apply negb_true_iff, Rltb_false in G. destruct (read_dm_ok _ _ _ _ _ E8 E9) as [D _].
  assert (W : wf (d_inf dm)). { destruct D as (? & ? & _ & _ & _ & (f & _ & Ef) & _). eapply Wg; eauto. }
  exists v3, v4, v5, v6, dm, dmrad, meas,
    (fun sx sy => match scale_cost lstsq ops usable meas dmrad dm (nr amp0) (nc amp0) xo yo cl sx sy with Ok v => v | Err _ => 0%R end), sx, sy.
  destruct E5, E6, E7. unfold has_real, has_int. do 9 (split; [solve [eauto]|]).
  split; [apply measured_ok; auto|]. split; [|auto].
  eapply scale_loop_ok; [exact O|auto| |exact E12]. intros x y w V. cbn beta. rewrite V. split; [|reflexivity].
  unfold scale_cost in V. inv_bind V. inv_bind V. inv_bind V. injection V as <-. exists v7, v8, v9. split; [auto|]. split; [|split; [auto|reflexivity]].
  pose proof (dmhtoph_shape _ _ _ _ _ _ _ _ _ _ _ _ _ _ W Sp E5) as [N1 N2].
  pose proof (dmhtoph_ok _ _ _ _ _ _ _ _ _ _ _ _ _ _ W E5) as ((Q1 & Q2 & _) & _).
  apply pad_crop_inv in E6 as (h & w & Q & P1 & P2 & R1 & R2 & P); [|split; cbn; lia]. injection Q as <- <-.
  split; [auto|]. split; [auto|]. intros i j [I J]. apply P; lia.
Qed.
