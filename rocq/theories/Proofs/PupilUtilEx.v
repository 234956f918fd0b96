(** Concrete cases for pupil/util.py. *)
From Coq Require Import ZArith Bool List Reals Lra Lia String.
From Flocq Require Import Core.
From Coquelicot Require Import Complex.
From Verif.Base Require Import Py Arr Vec Sums CSum Lstsq.
From Verif.Model Require Import Math Noll Fits Shapes PadCrop PsfFit MaskGen PupilUtil.
From Verif.Spec Require Import PsfFitSpec FitsSpec MaskGenSpec PupilUtilSpec.
From Verif.Proofs Require Import PadCropP FitsP PsfFitP MaskGenP MaskGenEx PupilUtilP PupilUtilN PupilUtilL PupilUtilC.
Import ListNotations.
Open Scope list_scope.
Open Scope Z_scope.

(** ** Coarse location: a pass can end outside the image *)
Definition dark93 : arr R := afull 9 3 (-1)%R.
Lemma dark_flux x y : (disc_flux dark93 2 x y <= 0)%R.
Proof.
  unfold disc_flux. apply Rle_trans with (rsum2 (fun _ _ => 0%R) (nr dark93) (nc dark93)); [|rewrite rsum2_zero; lra].
  apply rsum2_le. intros i j _ _. destruct (Rle_dec _ _); cbn; lra.
Qed.
Lemma dark_off : exists m, coarsely_locate_pupil_offset_once dark93 2 0 0 4 1 = Ok (-4, -4, m).
Proof.
  destruct (once_ok dark93 2 0 0 4 1) as (x & y & m & E & B & _); [split; cbn; lia|lra|lia|lia|].
  assert (G : best_on_grid dark93 2 0 0 4 1 (-4) (-4)).
  { split; [exists 0; lia|]. split; [exists 0; lia|]. intros x' y' (kx & K1 & -> & K2) (ky & K3 & -> & K4).
    assert (Z : disc_flux dark93 2 (-4) (-4) = 0%R).
    { apply rsum2_all_zero. intros i j Hi Hj. destruct (Rle_dec _ _) as [L|]; [|auto]. exfalso.
      cbn in Hi, Hj. change (nc dark93 / 2) with 1 in L. change (nr dark93 / 2) with 4 in L.
      assert (3 <= IZR (j - 1 - -4))%R by (apply IZR_le; lia). nra. }
    rewrite Z. split; [apply dark_flux|]. lia. }
  destruct (best_unique _ _ _ _ _ _ _ _ _ _ B G) as [-> ->]. eauto.
Qed.
Lemma dark_whole : coarsely_locate_pupil_offset 1 (fun x => x) dark93 2 3 = Some (Ok (-4, -4)).
Proof.
  unfold coarsely_locate_pupil_offset. rewrite (proj2 (Rltb_iff 0 2)), (proj2 (Rltb_iff 0 3)), (proj2 (Rleb_false 3 1)) by lra. cbn [negb].
  assert (F : first_step (fun x => x) 2 3 = 1).
  { unfold first_step. replace (Zfloor (2 / 3)) with 0; [reflexivity|]. symmetry. apply Zfloor_imp. cbn. lra. }
  rewrite F. destruct dark_off as [m E]. cbn [coarse_loop]. change (Z.max (nc dark93 / 2) (nr dark93 / 2)) with 4. rewrite E. reflexivity.
Qed.
(** A disc recovered. *)
Definition disc99 : arr R := Arr 9 9 (fun i j => if Rle_dec (IZR (j - 4 - 1) ^ 2 + IZR (i - 4 - -2) ^ 2)%R ((3 / 2) ^ 2)%R then 7%R else 0%R).
Lemma disc99_ok : disc_image disc99 3 1 (-2).
Proof.
  split.
  - exists 7%R. split; [lra|]. intros i j _. unfold in_beam. cbn. change (9 / 2) with 4. destruct (Rle_dec _ _) as [L|L]; cbn in L; split; intro Q; auto; contradiction.
  - intros i j H. unfold in_beam in H. cbn in H. change (9 / 2) with 4 in H.
    assert (B : forall z, (IZR z ^ 2 <= (3 / 2) ^ 2)%R -> -1 <= z <= 1).
    { intros z Hz. assert (-2 < z /\ z < 2); [|lia]. split; apply lt_IZR; nra. }
    assert (B1 : -1 <= j - 4 - 1 <= 1) by (apply B; cbn; nra). assert (B2 : -1 <= i - 4 - -2 <= 1) by (apply B; cbn; nra).
    split; cbn; lia.
Qed.
Lemma three_64 : binary64 3%R /\ binary64 2%R.
Proof.
  split; apply generic_format_FLT.
  - exists (Float radix2 3 0); [unfold F2R; cbn; lra|cbn; lia|cbn; lia].
  - exists (Float radix2 2 0); [unfold F2R; cbn; lra|cbn; lia|cbn; lia].
Qed.
Lemma disc99_step : (round64 (3 / 2) < 2)%R.
Proof.
  rewrite round_generic; [lra|typeclasses eauto|]. apply generic_format_FLT.
  exists (Float radix2 3 (-1)); [unfold F2R; cbn; lra|cbn; lia|cbn; lia].
Qed.

(** ** Normalization *)
Definition im22 : arr R := of_rows 0%R [[1; 5]; [3; 9]]%R.
Definition mk22 : arr R := of_rows 0%R [[1; 1]; [1; 0]]%R.
Lemma norm_ex : compute_norm_factor im22 mk22 25 = Ok 2%R.
Proof.
  apply norm_ok. split; [reflexivity|]. split.
  { intros i j [Hi Hj]. cbn in Hi, Hj. assert (i = 0 \/ i = 1) as [->| ->] by lia; assert (j = 0 \/ j = 1) as [->| ->] by lia; (left; reflexivity) || (right; reflexivity). }
  split; [lra|].
  assert (E : values_where im22 mk22 = [1; 5; 3]%R).
  { unfold values_where. change (indices (nr im22) (nc im22)) with [(0, 0); (0, 1); (1, 0); (1, 1)]. cbn [filter fst snd].
    change (at2 mk22 0 0) with 1%R. change (at2 mk22 0 1) with 1%R. change (at2 mk22 1 0) with 1%R. change (at2 mk22 1 1) with 0%R.
    destruct (Req_EM_T 1 1); [|lra]. destruct (Req_EM_T 0 1); [lra|]. reflexivity. }
  rewrite E. split; [discriminate|].
  intros s P So. assert (s = [1; 3; 5]%R) as ->.
  { apply sorted_unique; auto.
    - repeat constructor; lra.
    - rewrite P. apply Permutation.perm_skip. apply Permutation.perm_swap. }
  exists 0%nat, (1 / 2)%R. cbn [List.length nth INR]. repeat split; try lra; try lia.
Qed.

(** ** Lateral offsets: a fit can leave the searched window *)
Definition ref22 : arr R := of_rows 0%R [[2; 1]; [1; 0]]%R.
Definition swp22 : arr R := of_rows 0%R [[1; 2]; [0; 1]]%R.
Lemma window22 (a : arr R) p q : nr a = 2 -> nc a = 2 -> 0 <= p < 2 -> 0 <= q < 2 -> window a 2 0 0 p q = at2 a p q.
Proof.
  intros Hr Hc Hp Hq. unfold window. rewrite Hr, Hc. change (2 / 2) with 1. replace (1 + 0 + (p - 1)) with p by lia. replace (1 + 0 + (q - 1)) with q by lia.
  rewrite (proj2 (in_arrb_spec a p q)); auto. split; lia.
Qed.
Lemma swp_shift : window_shift 2 (window ref22 2 0 0) 0 1 (window swp22 2 0 0).
Proof.
  intros p q Hp Hq. rewrite !window22 by (auto; try reflexivity; apply Z.mod_pos_bound; lia).
  assert (p = 0 \/ p = 1) as [->| ->] by lia; assert (q = 0 \/ q = 1) as [->| ->] by lia; reflexivity.
Qed.
Lemma csum_two f : csum f 2 = (f 0%Z + f 1%Z)%C.
Proof. change 2 with (1 + 1). rewrite csum_succ, csum_one by lia. auto. Qed.
Lemma rsum_two f : rsum f 2 = (f 0%Z + f 1%Z)%R.
Proof. change 2 with (1 + 1). rewrite rsum_succ, rsum_one by lia. auto. Qed.
Lemma cis_pi : cis PI = (-1)%R /\ cis (- PI) = (-1)%R.
Proof. unfold cis. rewrite cos_neg, sin_neg, cos_PI, sin_PI. rewrite Ropp_0. auto. Qed.
Lemma spec22 (f : Z -> Z -> R) k l : (k = 0 \/ k = -1) -> (l = 0 \/ l = -1) ->
  spectrum 2 f k l = RtoC ((f 0%Z 0%Z * (if Z.even (k + l) then 1 else -1) + f 0%Z 1%Z * (if Z.even k then 1 else -1)
    + f 1%Z 0%Z * (if Z.even l then 1 else -1) + f 1%Z 1%Z) / 2)%R.
Proof.
  intros Hk Hl. unfold spectrum. unfold csum2. rewrite !csum_two.
  change (2 / 2) with 1. change (0 - 1) with (-1). change (1 - 1) with 0.
  assert (E : forall t : R, (t = 0 -> cis t = RtoC 1)%R /\ (t = - PI -> cis t = RtoC (-1))%R /\ (t = - (2 * PI) -> cis t = RtoC 1)%R).
  { intros t. split; [intros ->; apply cis_0|]. split; [intros ->; apply cis_pi|]. intros ->.
    replace (- (2 * PI))%R with (- PI + - PI)%R by ring. rewrite cis_add, !(proj2 cis_pi). rewrite <- RtoC_mult. f_equal. ring. }
  destruct Hk as [->| ->], Hl as [->| ->]; cbn [Z.add Z.even];
  repeat (match goal with |- context [cis ?t] =>
    first [rewrite (proj1 (E t)) by field | rewrite (proj1 (proj2 (E t))) by field | rewrite (proj2 (proj2 (E t))) by field] end);
  cbn [Pos.add]; rewrite <- !RtoC_mult, <- !RtoC_plus, <- RtoC_div by lra; f_equal; field.
Qed.
Lemma ref22_spec : spectrum 2 (window ref22 2 0 0) 0 0 = RtoC 2 /\ spectrum 2 (window ref22 2 0 0) 0 (-1) = RtoC (-1) /\
  spectrum 2 (window ref22 2 0 0) (-1) 0 = RtoC (-1) /\ spectrum 2 (window ref22 2 0 0) (-1) (-1) = RtoC 0.
Proof.
  rewrite !spec22 by auto. rewrite !window22 by (reflexivity || lia).
  change (at2 ref22 0 0) with 2%R. change (at2 ref22 0 1) with 1%R. change (at2 ref22 1 0) with 1%R. change (at2 ref22 1 1) with 0%R.
  cbn [Z.add Z.even Pos.add Pos.succ]. repeat split; f_equal; field.
Qed.
Lemma mismatch22 u v : mismatch 2 2 (window ref22 2 0 0) u v = (4 - 2 * cos (PI * u) - 2 * cos (PI * v))%R.
Proof.
  unfold mismatch. unfold rsum2. rewrite !rsum_two. cbv zeta. change (2 / 2) with 1. change (0 - 1) with (-1). change (1 - 1) with 0.
  change (in_band 2 (-1)) with true. change (in_band 2 0) with true. cbn [andb].
  destruct ref22_spec as (-> & -> & -> & ->).
  assert (Q : forall t : R, cos (- t) = cos t) by apply cos_neg.
  replace (2 * PI * ((u * 0 + v * -1) / 2))%R with (- (PI * v))%R by field.
  replace (2 * PI * ((u * -1 + v * 0) / 2))%R with (- (PI * u))%R by field.
  replace (2 * PI * ((u * 0 + v * 0) / 2))%R with 0%R by field. rewrite !Q, cos_0, !Cmod2_R. ring.
Qed.
Lemma grid3_unisolvent x0 y0 d : d <> 0%R -> unisolvent2 (delta_vec 3 d x0) (delta_vec 3 d y0) (afull 3 3 1%R).
Proof.
  intros Hd a b c p q r H. 
  assert (G : forall i j, 0 <= i < 3 -> 0 <= j < 3 -> quad2 a b c p q r (x0 + (IZR j - 1) * d) (y0 + (IZR i - 1) * d) = 0%R).
  { intros i j Hi Hj. specialize (H i j). rewrite !delta_at in H by (auto; lia). unfold trial in H.
    replace (x0 + (IZR j - 1) * d)%R with (x0 + (IZR j - (3 - 1) / 2) * d)%R by field.
    replace (y0 + (IZR i - 1) * d)%R with (y0 + (IZR i - (3 - 1) / 2) * d)%R by field. apply H; [split; auto|]. cbn. lra. }
  pose proof (G 0 0 ltac:(lia) ltac:(lia)) as G00. pose proof (G 1 1 ltac:(lia) ltac:(lia)) as G11.
  pose proof (G 0 1 ltac:(lia) ltac:(lia)) as G01. pose proof (G 2 1 ltac:(lia) ltac:(lia)) as G21.
  pose proof (G 1 0 ltac:(lia) ltac:(lia)) as G10. pose proof (G 1 2 ltac:(lia) ltac:(lia)) as G12. unfold quad2 in *.
  assert (A : (a * d ^ 2 = 0)%R) by lra. assert (C : (c * d ^ 2 = 0)%R) by lra.
  assert (D2 : (d ^ 2 <> 0)%R) by (apply pow_nonzero; auto).
  assert (a = 0%R) as -> by (destruct (Rmult_integral _ _ A); [auto|contradiction]).
  assert (c = 0%R) as -> by (destruct (Rmult_integral _ _ C); [auto|contradiction]).
  assert (B : (b * d ^ 2 = 0)%R) by lra.
  assert (b = 0%R) as -> by (destruct (Rmult_integral _ _ B); [auto|contradiction]).
  assert (P : (p * d = 0)%R) by lra. assert (Q : (q * d = 0)%R) by lra.
  assert (p = 0%R) as -> by (destruct (Rmult_integral _ _ P); [auto|contradiction]).
  assert (q = 0%R) as -> by (destruct (Rmult_integral _ _ Q); [auto|contradiction]).
  repeat split; lra.
Qed.
(** One fit on a 3 by 3 grid with the data in units of the spacing: A + al t + be t^2 + ga s^2. *)
Lemma fit3 lstsq (m : R -> R -> R) x0 y0 d A al be ga : is_lstsq_oracle lstsq -> (0 < d <= 1)%R -> (be <> 0)%R -> (1 / 2 <= Rabs (be * ga))%R -> (1 <= Rabs ga)%R ->
  (forall i j, 0 <= i < 3 -> 0 <= j < 3 -> m (trial 3 d x0 j) (trial 3 d y0 i) = (A + al * IZR (j - 1) + be * IZR (j - 1) ^ 2 + ga * IZR (i - 1) ^ 2)%R) ->
  find_optimum_2d lstsq (delta_vec 3 d x0) (delta_vec 3 d y0)
    (Arr 3 3 (fun iy ix => m (vat (delta_vec 3 d x0) ix) (vat (delta_vec 3 d y0) iy))) (afull 3 3 1%R)
  = Ok (x0 - al / (2 * be) * d, y0)%R.
Proof.
  intros O Hd Hb Hbg Hg H. assert (Hg0 : ga <> 0%R) by (intros ->; rewrite Rabs_R0 in Hg; lra).
  rewrite (opt2_exact lstsq O _ _ _ _ (be / d ^ 2) 0 (ga / d ^ 2) (al / d - 2 * be * x0 / d ^ 2) (- 2 * ga * y0 / d ^ 2)
     (A - al * x0 / d + be * x0 ^ 2 / d ^ 2 + ga * y0 ^ 2 / d ^ 2)); try reflexivity.
  - assert (T : (/ 10 ^ 15 <= 1)%R) by (rewrite <- Rinv_1; apply Rinv_le_contravar; [lra|apply pow_R1_Rle; lra]).
    assert (0 < / 10 ^ 15)%R by (apply Rinv_0_lt_compat, pow_lt; lra).
    assert (I : (1 <= / d ^ 2)%R).
    { rewrite <- Rinv_1. apply Rinv_le_contravar; nra. }
    destruct (Rlt_dec _ _) as [L|_].
    { exfalso. replace (0 ^ 2 - 4 * (be / d ^ 2) * (ga / d ^ 2))%R with (- (4 * (be * ga * (/ d ^ 2 * / d ^ 2))))%R in L by (field; lra).
      rewrite Rabs_Ropp, Rabs_mult, (Rabs_pos_eq 4), Rabs_mult, (Rabs_pos_eq (/ d ^ 2 * / d ^ 2)) in L by nra.
      assert (1 <= / d ^ 2 * / d ^ 2)%R by nra. nra. }
    destruct (Rlt_dec _ _) as [L|_].
    { exfalso. unfold Rdiv in L. rewrite Rabs_mult, Rabs_mult, (Rabs_pos_eq 2), (Rabs_pos_eq (/ d ^ 2)) in L by nra. nra. }
    apply f_equal. f_equal; field; lra.
  - intros i j _. right. reflexivity.
  - apply grid3_unisolvent. lra.
  - intros i j [Hi Hj] _. cbn [nr nc afull] in Hi, Hj. cbn [at2]. rewrite !delta_at by auto. rewrite H by auto. unfold quad2, trial.
    rewrite !minus_IZR. field. lra.
Qed.
Lemma first_max_unique f n m i j i' j' : first_max f n m i j -> first_max f n m i' j' -> i = i' /\ j = j'.
Proof.
  intros (Hi & Hj & M & F) (Hi' & Hj' & M' & F').
  destruct (Z.eq_dec i i') as [->|Ni]; [destruct (Z.eq_dec j j') as [->|Nj]; [auto|]|]; exfalso;
  (assert (before i' j' i j \/ before i j i' j') as [B|B] by (unfold before; lia);
   [pose proof (F i' j' Hi' Hj' B); pose proof (M' i j Hi Hj); lra|pose proof (F' i j Hi Hj B); pose proof (M i' j' Hi' Hj'); lra])
  || (assert (before i' j' i' j \/ before i' j i' j') as [B|B] by (unfold before; lia);
   [pose proof (F i' j' Hi' Hj' B); pose proof (M' i' j Hi Hj); lra|pose proof (F' i' j Hi Hj B); pose proof (M i' j' Hi' Hj'); lra]).
Qed.
Definition turn4 : R := (acos (1 / 4) / PI)%R.
Lemma turn4_ok : (0 < turn4 < 1)%R /\ cos (PI * turn4) = (1 / 4)%R.
Proof.
  pose proof PI_RGT_0 as P. pose proof (acos_bound_lt (1 / 4) ltac:(lra)) as B. unfold turn4. split.
  - split; [apply Rdiv_lt_0_compat; lra|]. apply Rmult_lt_reg_r with PI; [auto|]. replace (acos (1 / 4) / PI * PI)%R with (acos (1 / 4)) by (field; lra). lra.
  - replace (PI * (acos (1 / 4) / PI))%R with (acos (1 / 4)) by (field; lra). apply cos_acos. lra.
Qed.
Lemma starts0 fuel rnd meas d : starts fuel rnd meas d false 0 0 0 0.
Proof. cbn. rewrite (ZnearestE_IZR 0). auto. Qed.
Lemma leaves lstsq fuel rnd : is_lstsq_oracle lstsq ->
  compute_lateral_offsets lstsq fuel rnd swp22 ref22 1 3 turn4 2 2 2 false 0 0 = Some (Ok (0, 3 / 2 * turn4)%R).
Proof.
  intros O. destruct turn4_ok as [T C].
  rewrite (lateral_unfold lstsq fuel rnd swp22 ref22 1 3 turn4 2 2 2 false 0 0 0 0) by (try lra; try lia; try (split; cbn; lia); try (cbn; lia); try apply starts0).
  set (m := misfit 2 2 _ _).
  assert (M : forall x y, m x y = (4 + 2 * cos (PI * x) - 2 * cos (PI * y))%R).
  { intros x y. unfold m. rewrite (misfit_shift 2 2 _ 0 1) by (lia || reflexivity || apply swp_shift). rewrite mismatch22.
    replace (PI * (x - 1))%R with (PI * x - PI)%R by ring. replace (PI * (y - 0))%R with (PI * y)%R by ring.
    rewrite cos_minus, cos_PI, sin_PI. ring. }
  set (d := turn4) in *.
  assert (C2 : cos (PI * (2 * d)) = (- 7 / 8)%R).
  { replace (PI * (2 * d))%R with (2 * (PI * d))%R by ring. rewrite cos_2a_cos, C. lra. }
  assert (C0 : cos (PI * 0) = 1%R) by (rewrite Rmult_0_r; apply cos_0).
  assert (CN : forall x, cos (PI * - x) = cos (PI * x)) by (intros x; rewrite <- (cos_neg (PI * x)); f_equal; ring).
  assert (T0 : forall c, trial 3 d c 0 = (c - d)%R /\ trial 3 d c 1 = c /\ trial 3 d c 2 = (c + d)%R) by (intros c; unfold trial; repeat split; field).
  change (Z.to_nat 2) with 2%nat. cbn [lateral_loop]. unfold lateral_step at 1. cbn [Z.ltb Z.compare Z.eqb andb Pos.compare Pos.compare_cont].
  destruct (argmin_ok 3 (fun iy ix => m (vat (delta_vec 3 d 0) ix) (vat (delta_vec 3 d 0) iy)) ltac:(lia)) as (b & Eb & B).
  rewrite Eb. cbn [bind].
  assert (B' : first_max (fun i j => - m (trial 3 d 0 j) (trial 3 d 0 i))%R 3 3 (fst b) (snd b)).
  { revert B. apply first_max_ext. intros i j Hi' Hj'. rewrite !delta_at by auto. auto. }
  destruct (T0 0%R) as (t0 & t1 & t2). rewrite Rminus_0_l in t0. rewrite Rplus_0_l in t2.
  assert (F : first_max (fun i j => - m (trial 3 d 0 j) (trial 3 d 0 i))%R 3 3 1 0).
  { split; [lia|]. split; [lia|]. split.
    - intros i j Hi Hj. rewrite !M, t0, t1, CN, C, C0.
      assert (i = 0 \/ i = 1 \/ i = 2) as [->|[->| ->]] by lia; assert (j = 0 \/ j = 1 \/ j = 2) as [->|[->| ->]] by lia;
        rewrite ?t0, ?t1, ?t2, ?CN, ?C, ?C0; lra.
    - intros i j Hi Hj Bf. rewrite !M, t0, t1, CN, C, C0.
      assert (i = 0 \/ i = 1 \/ i = 2) as [->|[->| ->]] by lia; assert (j = 0 \/ j = 1 \/ j = 2) as [->|[->| ->]] by lia;
        try (exfalso; unfold before in Bf; lia); rewrite ?t0, ?t1, ?t2, ?CN, ?C, ?C0; lra. }
  destruct (first_max_unique _ _ _ _ _ _ _ B' F) as [E1 E2]. rewrite E1, E2, !delta_at by lia. rewrite t0, t1.
  unfold lateral_step. cbn [Z.add Z.ltb Z.compare Z.eqb andb Pos.compare Pos.compare_cont].
  rewrite (fit3 lstsq m (- d) 0 d (5 / 2) (15 / 8) (- 3 / 8) (3 / 2)); auto.
  - cbn [bind fst snd]. do 3 f_equal; [ring|]. field.
  - lra.
  - lra.
  - rewrite Rabs_left; lra.
  - rewrite Rabs_pos_eq; lra.
  - intros i j Hi Hj. rewrite M. destruct (T0 (- d)%R) as (u0 & u1 & u2).
    replace (- d - d)%R with (- (2 * d))%R in u0 by ring. replace (- d + d)%R with 0%R in u2 by ring.
    assert (i = 0 \/ i = 1 \/ i = 2) as [->|[->| ->]] by lia; assert (j = 0 \/ j = 1 \/ j = 2) as [->|[->| ->]] by lia;
        rewrite ?t0, ?t1, ?t2, ?u0, ?u1, ?u2, ?CN, ?C, ?C2, ?C0; cbn [Z.sub Z.add Z.opp Pos.add Z.pos_sub Pos.pred_double]; lra.
Qed.

(** ** Lateral offsets: a shift recovered *)
Definition cross (x : Z) : arr R := Arr 4 4 (fun p q => (if p =? 2 then 1 else 0) + (if q =? x then 1 else 0))%R.
Lemma window44 x p q : 0 <= p < 4 -> 0 <= q < 4 -> window (cross x) 4 0 0 p q = at2 (cross x) p q.
Proof.
  intros Hp Hq. unfold window. change (nr (cross x) / 2) with 2. change (nc (cross x) / 2) with 2. change (4 / 2) with 2.
  replace (2 + 0 + (p - 2)) with p by lia. replace (2 + 0 + (q - 2)) with q by lia.
  rewrite (proj2 (in_arrb_spec (cross x) p q)); auto. split; cbn; lia.
Qed.
Lemma cross_shift : window_shift 4 (window (cross 2) 4 0 0) 0 1 (window (cross 3) 4 0 0).
Proof.
  intros p q Hp Hq. rewrite !window44 by (auto; apply Z.mod_pos_bound; lia).
  assert (p = 0 \/ p = 1 \/ p = 2 \/ p = 3) as [->|[->|[->| ->]]] by lia;
  assert (q = 0 \/ q = 1 \/ q = 2 \/ q = 3) as [->|[->|[->| ->]]] by lia; reflexivity.
Qed.
Lemma csum_four f : csum f 4 = (f 0%Z + f 1%Z + f 2%Z + f 3%Z)%C.
Proof. change 4 with (2 + 1 + 1). rewrite !csum_succ, csum_two by lia. auto. Qed.
Lemma cross_spec k l : (k = 0 \/ k = -1) -> (l = 0 \/ l = -1) -> (k, l) <> (0, 0) ->
  spectrum 4 (window (cross 2) 4 0 0) k l = RtoC (if (k =? -1) && (l =? -1) then 0 else 1).
Proof.
  intros Hk Hl Hn. unfold spectrum, csum2. rewrite !csum_four, !window44 by lia. cbn [cross at2 Z.eqb Pos.eqb].
  change (4 / 2) with 2. change (0 - 2) with (-2). change (1 - 2) with (-1). change (2 - 2) with 0. change (3 - 2) with 1.
  assert (E : forall t : R, (t = 0 -> cis t = RtoC 1)%R /\ (t = PI -> cis t = RtoC (-1))%R /\ (t = - PI -> cis t = RtoC (-1))%R /\
     (t = PI / 2 -> cis t = (0, 1))%R /\ (t = - (PI / 2) -> cis t = (0, -1))%R /\ (t = - (3 * (PI / 2)) -> cis t = (0, 1))%R /\
     (t = - (2 * PI) -> cis t = RtoC 1)%R).
  { intros t. assert (H2 : cis (PI / 2) = (0, 1)%R) by (unfold cis; rewrite cos_PI2, sin_PI2; auto).
    assert (H3 : cis (- (PI / 2)) = (0, -1)%R) by (unfold cis; rewrite cos_neg, sin_neg, cos_PI2, sin_PI2; auto).
    split; [intros ->; apply cis_0|]. split; [intros ->; apply cis_pi|]. split; [intros ->; apply cis_pi|]. split; [intros ->; auto|].
    split; [intros ->; auto|]. split; intros ->.
    - replace (- (3 * (PI / 2)))%R with (- PI + - (PI / 2))%R by field. rewrite cis_add, (proj2 cis_pi), H3.
      unfold Cmult, RtoC. cbn. f_equal; ring.
    - replace (- (2 * PI))%R with (- PI + - PI)%R by ring. rewrite cis_add, !(proj2 cis_pi). rewrite <- RtoC_mult. f_equal. ring. }
  destruct Hk as [->| ->], Hl as [->| ->]; try congruence; cbn [Z.eqb Pos.eqb andb];
  repeat (match goal with |- context [cis ?t] => let H := fresh in
    pose proof (E t) as H;
    first [rewrite (proj1 H) by field | rewrite (proj1 (proj2 H)) by field | rewrite (proj1 (proj2 (proj2 H))) by field
      | rewrite (proj1 (proj2 (proj2 (proj2 H)))) by field | rewrite (proj1 (proj2 (proj2 (proj2 (proj2 H))))) by field
      | rewrite (proj1 (proj2 (proj2 (proj2 (proj2 (proj2 H)))))) by field | rewrite (proj2 (proj2 (proj2 (proj2 (proj2 (proj2 H)))))) by field]; clear H end);
  apply injective_projections; unfold Cdiv, Cinv, Cmult, Cplus, RtoC; cbn [fst snd]; field.
Qed.
Lemma cross_mismatch u v : mismatch 4 2 (window (cross 2) 4 0 0) u v = (4 - 2 * cos (PI / 2 * u) - 2 * cos (PI / 2 * v))%R.
Proof.
  unfold mismatch. unfold rsum2. rewrite !rsum_two. cbv zeta.
  change (2 / 2) with 1. change (0 - 1) with (-1). change (1 - 1) with 0.
  change (in_band 4 (-1)) with true. change (in_band 4 0) with true. cbn [andb].
  rewrite (cross_spec (-1) (-1)), (cross_spec (-1) 0), (cross_spec 0 (-1)) by (auto; congruence). cbn [Z.eqb Pos.eqb andb].
  replace (2 * PI * ((u * 0 + v * -1) / 4))%R with (- (PI / 2 * v))%R by field.
  replace (2 * PI * ((u * -1 + v * 0) / 4))%R with (- (PI / 2 * u))%R by field.
  replace (2 * PI * ((u * 0 + v * 0) / 4))%R with 0%R by field. rewrite !cos_neg, cos_0, !Cmod2_R. ring.
Qed.
Lemma recovered lstsq fuel rnd : is_lstsq_oracle lstsq ->
  compute_lateral_offsets lstsq fuel rnd (cross 3) (cross 2) 1 3 1 4 2 2 false 0 0 = Some (Ok (0, 1)%R).
Proof.
  intros O.
  destruct (lateral_recovers lstsq O fuel rnd (cross 3) (cross 2) 1 3 1 4 2 2 false 0 0 0 0 0 1) as [E|E];
    try lra; try lia; try (split; cbn; lia); try (cbn; lia); try apply starts0; try reflexivity.
  - apply cross_shift.
  - rewrite cross_spec by (auto; congruence). cbn. intro H. apply RtoC_inj in H. lra.
  - rewrite cross_spec by (auto; congruence). cbn. intro H. apply RtoC_inj in H. lra.
  - exists 1, 2. unfold trial. repeat split; lia || lra.
  - cbn. lra.
  - exfalso. revert E.
    rewrite (lateral_unfold lstsq fuel rnd (cross 3) (cross 2) 1 3 1 4 2 2 false 0 0 0 0) by (try lra; try lia; try (split; cbn; lia); try (cbn; lia); try apply starts0).
    set (m := misfit 4 2 _ _).
    assert (M : forall x y, m x y = (4 - 2 * cos (PI / 2 * (x - 1)) - 2 * cos (PI / 2 * y))%R).
    { intros x y. unfold m. rewrite (misfit_shift 4 2 _ 0 1) by (lia || reflexivity || apply cross_shift). rewrite cross_mismatch.
      replace (y - 0)%R with y by ring. auto. }
    assert (C1 : cos (PI / 2 * 1) = 0%R) by (rewrite Rmult_1_r; apply cos_PI2).
    assert (C0 : cos (PI / 2 * 0) = 1%R) by (rewrite Rmult_0_r; apply cos_0).
    assert (Cm : cos (PI / 2 * -1) = 0%R) by (replace (PI / 2 * -1)%R with (- (PI / 2 * 1))%R by ring; rewrite cos_neg; auto).
    assert (Cm2 : cos (PI / 2 * -2) = (-1)%R) by (replace (PI / 2 * -2)%R with (- PI)%R by field; rewrite cos_neg; apply cos_PI).
    assert (T0 : forall c, trial 3 1 c 0 = (c - 1)%R /\ trial 3 1 c 1 = c /\ trial 3 1 c 2 = (c + 1)%R) by (intros c; unfold trial; repeat split; field).
    destruct (T0 0%R) as (t0 & t1 & t2). destruct (T0 1%R) as (u0 & u1 & u2).
    assert (V : forall i j, 0 <= i < 3 -> 0 <= j < 3 -> m (trial 3 1 0 j) (trial 3 1 0 i) =
      (4 - 2 * (if j =? 0 then -1 else if j =? 1 then 0 else 1) - 2 * (if i =? 1 then 1 else 0))%R).
    { intros i j Hi Hj. rewrite M.
      assert (i = 0 \/ i = 1 \/ i = 2) as [->|[->| ->]] by lia; assert (j = 0 \/ j = 1 \/ j = 2) as [->|[->| ->]] by lia;
      cbn [Z.eqb Pos.eqb]; rewrite ?t0, ?t1, ?t2;
      repeat match goal with |- context [cos (PI / 2 * ?e)] => first
        [ replace (PI / 2 * e)%R with (PI / 2 * 1)%R by (f_equal; ring); rewrite C1
        | replace (PI / 2 * e)%R with (PI / 2 * 0)%R by (f_equal; ring); rewrite C0
        | replace (PI / 2 * e)%R with (PI / 2 * -1)%R by (f_equal; ring); rewrite Cm
        | replace (PI / 2 * e)%R with (PI / 2 * -2)%R by (f_equal; ring); rewrite Cm2 ] end; lra. }
    change (Z.to_nat 2) with 2%nat. cbn [lateral_loop]. unfold lateral_step at 1. cbn [Z.ltb Z.compare Z.eqb andb Pos.compare Pos.compare_cont].
    destruct (argmin_ok 3 (fun iy ix => m (vat (delta_vec 3 1 0) ix) (vat (delta_vec 3 1 0) iy)) ltac:(lia)) as (b & Eb & B).
    rewrite Eb. cbn [bind].
    assert (B' : first_max (fun i j => - m (trial 3 1 0 j) (trial 3 1 0 i))%R 3 3 (fst b) (snd b)).
    { revert B. apply first_max_ext. intros i j Hi' Hj'. rewrite !delta_at by auto. auto. }
    assert (F : first_max (fun i j => - m (trial 3 1 0 j) (trial 3 1 0 i))%R 3 3 1 2).
    { split; [lia|]. split; [lia|]. split.
      - intros i j Hi Hj. rewrite !V by lia. cbn [Z.eqb Pos.eqb]. destruct (j =? 0), (j =? 1), (i =? 1); lra.
      - intros i j Hi Hj Bf. rewrite !V by lia. unfold before in Bf. cbn [Z.eqb Pos.eqb].
        destruct (Z.eqb_spec j 0), (Z.eqb_spec j 1), (Z.eqb_spec i 1); lra || lia. }
    destruct (first_max_unique _ _ _ _ _ _ _ B' F) as [E1 E2]. rewrite E1, E2, !delta_at by lia. rewrite t2, t1. rewrite Rplus_0_l.
    unfold lateral_step. cbn [Z.add Z.ltb Z.compare Z.eqb andb Pos.compare Pos.compare_cont].
    rewrite (fit3 lstsq m 1 0 1 0 0 2 2); auto; try lra; try (rewrite Rabs_pos_eq; lra); [discriminate|].
    intros i j Hi Hj. rewrite M.
    assert (i = 0 \/ i = 1 \/ i = 2) as [->|[->| ->]] by lia; assert (j = 0 \/ j = 1 \/ j = 2) as [->|[->| ->]] by lia;
      cbn [Z.sub Z.add Z.opp Pos.add Z.pos_sub Pos.pred_double]; rewrite ?t0, ?t1, ?t2, ?u0, ?u1, ?u2;
      repeat match goal with |- context [cos (PI / 2 * ?e)] => first
        [ replace (PI / 2 * e)%R with (PI / 2 * 1)%R by (f_equal; ring); rewrite C1
        | replace (PI / 2 * e)%R with (PI / 2 * 0)%R by (f_equal; ring); rewrite C0
        | replace (PI / 2 * e)%R with (PI / 2 * -1)%R by (f_equal; ring); rewrite Cm ] end; lra.
  - rewrite E. reflexivity.
Qed.

(** ** Clocking: a peak recovered *)
Lemma two_level_gen a n : 3 <= n -> (forall i j, in_arr a i j -> at2 a i j = 0%R \/ at2 a i j = 1%R) ->
  (exists i j, in_arr a i j /\ at2 a i j = 0%R) -> (exists i j, in_arr a i j /\ at2 a i j = 1%R) ->
  exists m, ampthresh a n = Ok m.
Proof.
  intros Hn V (i0 & j0 & I0 & V0) (i1 & j1 & I1 & V1).
  assert (Rn : (3 <= IZR n)%R) by (apply IZR_le; auto).
  destruct (ampthresh_total a n) as [|E]; auto. exfalso.
  apply ampthresh_err in E as [_ [H|[H|[(v & Mi & Ma)|(lo & hi & H & Mi & Ma & _ & Hi & W)]]]].
  - lia.
  - apply H. eauto.
  - pose proof (proj2 Mi i0 j0 I0). pose proof (proj2 Ma i1 j1 I1). lra.
  - assert (L : lo = 0%R).
    { apply (min_unique a); auto. split; [eauto|]. intros i j I. destruct (V i j I); lra. }
    assert (U : hi = 1%R).
    { apply (max_unique a); auto. split; [eauto|]. intros i j I. destruct (V i j I); lra. }
    subst lo hi. apply (W (n - 2)); [lia|].
    destruct (Hi (n - 2 - 1) ltac:(lia)) as (f0 & F0 & E0). destruct (Hi (n - 2) ltac:(lia)) as (f1 & F1 & E1).
    destruct (Hi (n - 2 + 1) ltac:(lia)) as (f2 & F2 & E2). unfold in_bin in *.
    assert (B : forall (f : Z -> Z -> R) (P : Prop) i j, (P -> f i j = 1%R) /\ (~ P -> f i j = 0%R) -> (0 <= f i j)%R).
    { intros f P i j [X Y]. destruct (Classical_Prop.classic P) as [p|p]; [rewrite X|rewrite Y]; auto; lra. }
    assert (Z1 : H (n - 2) = 0%R).
    { rewrite E1. apply rsum2_all_zero. intros i j Hi' Hj'. destruct (F1 i j ltac:(split; auto)) as [_ A].
      apply A. rewrite ?minus_IZR. intros [G1 G2].
      assert (1 <= (IZR n - 2))%R by lra.
      assert (Dp : (0 < (IZR n - 2) * (1 - 0) / IZR n)%R) by (apply Rdiv_lt_0_compat; lra).
      assert (D1 : ((IZR n - 2 + 1) * (1 - 0) / IZR n < 1)%R) by (apply Rmult_lt_reg_r with (IZR n); [lra|]; unfold Rdiv; rewrite Rmult_assoc, Rinv_l by lra; lra).
      destruct (V i j ltac:(split; auto)) as [Q|Q]; rewrite Q in *; destruct G2 as [G2|[G2 G3]]; lra || lia. }
    assert (Z0 : (0 <= H (n - 2 - 1)%Z)%R).
    { rewrite E0. apply rsum2_nonneg. intros i j Hi' Hj'. eapply B; apply F0; split; auto. }
    assert (Z2 : (1 <= H (n - 2 + 1)%Z)%R).
    { rewrite E2. apply Rle_trans with (f2 i1 j1).
      - rewrite (proj1 (F2 i1 j1 I1)); [lra|]. rewrite V1. rewrite ?plus_IZR, ?minus_IZR.
        assert (D1 : ((IZR n - 2 + 1) * (1 - 0) / IZR n <= 1)%R) by (apply Rmult_le_reg_r with (IZR n); [lra|]; unfold Rdiv; rewrite Rmult_assoc, Rinv_l by lra; lra).
        split; [lra|]. right. split; [lia|lra].
      - apply rsum2_term_le; [|apply I1|apply I1]. intros i j Hi' Hj'. eapply B; apply F2; split; auto. }
    unfold valley. split; lra.
Qed.
(** Two bright pixels, [x] and the next, in the middle row of a 5 by 5 image. *)
Definition pair5 (x : Z) : arr R := Arr 5 5 (fun i j => if (i =? 2) && ((j =? x) || (j =? x + 1)) then 1%R else 0%R).
(** A stand-in for the rotation that moves the image by whole columns. *)
Definition slide : rotate_fun := fun a d =>
  Arr (nr a) (nc a) (fun i j => if in_arrb a i (j - ZnearestE d) then at2 a i (j - ZnearestE d) else 0%R).
Lemma slide_ok z : -1 <= z <= 1 -> exists p r, rotate_shift_downsample slide spline_ref (pair5 2) (IZR z) (1 / 1) 0 0 1 false = Ok p /\
  pad_crop p [5; 5] 0%R = Ok r /\ nr r = 5 /\ nc r = 5 /\ forall i j, 0 <= i < 5 -> 0 <= j < 5 -> at2 r i j = at2 (pair5 (2 - z)) i j.
Proof.
  intros Hz.
  assert (H2 : least_odd_above (1 * IZR (Z.max (nr (pair5 2)) (nc (pair5 2)))) (2 * 2 + 1)).
  { cbn. split; [exists 2; auto|]. split; [lra|]. intros m _ H. apply le_IZR. lra. }
  assert (H3 : least_odd_above (IZR (2 * 2 + 1) * (1 / 1) + 2 + 2 * Rmax (Rabs 0) (Rabs 0)) (2 * 3 + 1)).
  { rewrite Rabs_R0. replace (Rmax 0 0) with 0%R by (unfold Rmax; destruct Rle_dec; auto).
    split; [exists 3; auto|]. cbn. split; [lra|]. intros m _ H. apply le_IZR. lra. }
  destruct (value_lem slide spline_ref (pair5 2) (IZR z) (1 / 1) 0 0 1 false 2 3) as (p & A & g & E & A1 & A2 & AV & _ & (G1 & G2) & P1 & P2 & _ & PV);
    auto; try lra; try lia; [split; cbn; lia|].
  destruct (pad_crop_ok p 5 5 0%R) as (r & Er & R1 & R2 & RV); [split; lia|lia|lia|].
  exists p, r. split; auto. split; auto. split; auto. split; auto. intros i j Hi Hj. rewrite RV by auto. rewrite P1, P2.
  change (5 / 2) with 2. change (2 * (3 + 1) / 2) with 4.
  rewrite (proj2 (in_arrb_spec p _ _)) by (split; lia).
  replace (i - 2 + 4) with (3 + 1 + (i - 2)) by lia. replace (j - 2 + 4) with (3 + 1 + (j - 2)) by lia.
  rewrite PV by lia.
  assert (AV' : forall a b, 0 <= a < 5 -> 0 <= b < 5 -> at2 A a b = at2 (pair5 2) a b).
  { intros a b Ha Hb. rewrite AV by (split; lia). rewrite smoothed_point by (lia || lra). unfold flipped, off_centre.
    change (nr (pair5 2) / 2) with 2. change (nc (pair5 2) / 2) with 2. replace (2 + (a - 2)) with a by lia. replace (2 + (b - 2)) with b by lia.
    rewrite (proj2 (in_arrb_spec (pair5 2) a b)) by (split; cbn; lia). auto. }
  assert (Inc : increasing g).
  { intros a b Ha Hb. rewrite G1 in Hb. rewrite !G2 by lia. apply IZR_lt. lia. }
  set (A' := if Req_EM_T (IZR z) 0 then A else slide A (- IZR z)%R).
  assert (S1 : nr A' = 5 /\ nc A' = 5) by (unfold A'; destruct (Req_EM_T _ _); split; assumption). destruct S1 as [S1 S2].
  destruct (spline_ref_good g g A' Inc Inc) as [K _]; try lia.
  replace ((IZR (i - 2) - 0) / (1 / 1))%R with (vat g i) by (rewrite G2 by lia; field).
  replace ((IZR (j - 2) - 0) / (1 / 1))%R with (vat g j) by (rewrite G2 by lia; field).
  rewrite K by (split; lia). unfold A'. destruct (Req_EM_T (IZR z) 0) as [Z0|Z0].
  - apply eq_IZR in Z0. subst z. rewrite AV' by auto. reflexivity.
  - unfold slide. cbn [at2]. rewrite <- opp_IZR, ZnearestE_IZR.
    unfold in_arrb. rewrite A1, A2. change (2 * 2 + 1) with 5.
    destruct (Z.leb_spec 0 i); [|lia]. destruct (Z.ltb_spec i 5); [|lia]. cbn [andb].
    destruct (Z.leb_spec 0 (j - - z)); [destruct (Z.ltb_spec (j - - z) 5)|]; cbn [andb].
    + rewrite AV' by lia. cbn [pair5 at2]. destruct (Z.eqb_spec i 2); cbn [andb]; auto.
      destruct (Z.eqb_spec (j - - z) 2), (Z.eqb_spec (j - - z) (2 + 1)), (Z.eqb_spec j (2 - z)), (Z.eqb_spec j (2 - z + 1)); auto; lia.
    + cbn [pair5 at2]. destruct (Z.eqb_spec i 2); cbn [andb]; auto. destruct (Z.eqb_spec j (2 - z)), (Z.eqb_spec j (2 - z + 1)); auto; lia.
    + cbn [pair5 at2]. destruct (Z.eqb_spec i 2); cbn [andb]; auto. destruct (Z.eqb_spec j (2 - z)), (Z.eqb_spec j (2 - z + 1)); auto; lia.
Qed.
Lemma pair_thresh (a : arr R) x : 0 <= x <= 3 -> nr a = 5 -> nc a = 5 -> (forall i j, 0 <= i < 5 -> 0 <= j < 5 -> at2 a i j = at2 (pair5 x) i j) ->
  exists b, ampthresh a 21 = Ok b /\ forall i j, 0 <= i < 5 -> 0 <= j < 5 -> at2 b i j = (i =? 2) && ((j =? x) || (j =? x + 1)).
Proof.
  intros Hx H1 H2 V.
  assert (V01 : forall i j, in_arr a i j -> at2 a i j = 0%R \/ at2 a i j = 1%R).
  { intros i j [Hi Hj]. rewrite V by lia. cbn. destruct (_ && _); auto. }
  assert (I0 : in_arr a 0 0) by (split; lia). assert (I1 : in_arr a 2 x) by (split; lia).
  assert (V0 : at2 a 0 0 = 0%R) by (rewrite V by lia; reflexivity).
  assert (V1 : at2 a 2 x = 1%R) by (rewrite V by lia; cbn; rewrite Z.eqb_refl; auto).
  destruct (two_level_gen a 21) as [b E]; try lia; eauto 6. exists b. split; auto.
  pose proof (ampthresh_separates _ _ _ E) as (_ & _ & _ & Up & Dn). intros i j Hi Hj.
  assert (I : in_arr a i j) by (split; lia).
  destruct ((i =? 2) && ((j =? x) || (j =? x + 1))) eqn:Q.
  - apply Up; auto. assert (at2 a i j = 1%R) as -> by (rewrite V by auto; cbn; rewrite Q; auto).
    split; [eauto|]. intros i' j' I'. destruct (V01 i' j' I'); lra.
  - apply Dn; auto. assert (at2 a i j = 0%R) as -> by (rewrite V by auto; cbn; rewrite Q; auto).
    split; [eauto|]. intros i' j' I'. destruct (V01 i' j' I'); lra.
Qed.
Lemma angle3 i : 0 <= i < 3 -> clock_angle 1 3 i = IZR (i - 1).
Proof.
  intros Hi. unfold clock_angle. cbn [Z.eqb Pos.eqb]. rewrite minus_IZR. field.
Qed.
Lemma rsum_five f : rsum f 5 = (f 0%Z + f 1%Z + f 2%Z + f 3%Z + f 4%Z)%R.
Proof. change 5 with (2 + 1 + 1 + 1). rewrite !rsum_succ, rsum_two by lia. auto. Qed.
Lemma clock_ex lstsq : is_lstsq_oracle lstsq ->
  compute_clocking lstsq slide spline_ref (pair5 1) 1 (pair5 2) 1 0 0 1 3 50 (1 / 10) true = Ok 1%R.
Proof.
  intros O.
  assert (TM : exists b, ampthresh (amap (fun v => v ^ 2)%R (pair5 1)) 21 = Ok b /\
    forall i j, 0 <= i < 5 -> 0 <= j < 5 -> at2 b i j = (i =? 2) && ((j =? 1) || (j =? 1 + 1))).
  { apply pair_thresh; [lia|reflexivity|reflexivity|]. intros i j Hi Hj. cbn. destruct (_ && _); lra. }
  destruct TM as (m & Em & Vm).
  assert (P : exists v, compute_clocking lstsq slide spline_ref (pair5 1) 1 (pair5 2) 1 0 0 1 3 50 (1 / 10) true = Ok v).
  { unfold compute_clocking. rewrite (proj2 (Rltb_iff 0 1)), (proj2 (Rleb_iff 0 50)), (proj2 (Rleb_iff 0 (1 / 10))) by lra.
    cbn [Z.ltb Z.compare guard bind negb]. rewrite Em. cbn [bind].
    destruct (fill_def (fun i => overlap_bool slide spline_ref (pair5 1) (pair5 2) (1 / 1) 0 0 m (linspace (- (1))%R 1 3 i)) (Z.to_nat 3) 0) as [r Er].
    - intros i Hi. assert (0 <= i < 3) as Hi' by lia. rewrite clock_linspace, angle3 by auto. unfold overlap_bool, rotated_ref.
      destruct (slide_ok (i - 1) ltac:(lia)) as (p & r & -> & Er & R1 & R2 & RV). cbn [bind].
      change [nr (pair5 1); nc (pair5 1)] with [5; 5]. rewrite Er. cbn [bind].
      destruct (pair_thresh r (2 - (i - 1)) ltac:(lia) R1 R2 RV) as (b & -> & _). cbn [bind]. eauto.
    - rewrite Er. cbn [bind]. apply fit_def; [lia|lra]. }
  destruct P as [v Ev]. rewrite Ev. apply (clocking_ok lstsq O) in Ev; [|split; cbn; lia].
  destruct Ev as (m' & count & Em' & Ov & Es). rewrite Em in Em'. injection Em' as <-.
  assert (Cv : forall i, 0 <= i < 3 -> count i = (25 - 2 * IZR (2 - i))%R).
  { intros i Hi. destruct (Ov i Hi) as (p & r & b & E1 & Rc & Eb & Ct). rewrite angle3 in E1 by auto.
    destruct (slide_ok (i - 1) ltac:(lia)) as (p' & r' & E1' & Er & R1 & R2 & RV). rewrite E1' in E1. injection E1 as <-.
    assert (RV' : forall a c, 0 <= a < 5 -> 0 <= c < 5 -> at2 r a c = at2 (pair5 (2 - (i - 1))) a c).
    { intros a c Ha Hc. destruct Rc as (Q1 & Q2 & Q). cbn in Q1, Q2. rewrite Q by (split; lia). rewrite <- RV by auto.
      assert (W : wf p').
      { eapply down_wf; [|exact E1']. split; cbn; lia. }
      destruct (pad_crop_ok p' 5 5 0%R W ltac:(lia) ltac:(lia)) as (o & Eo & _ & _ & Ov'). rewrite Eo in Er. injection Er as <-.
      rewrite Ov' by auto. reflexivity. }
    destruct Rc as (Q1 & Q2 & _).
    destruct (pair_thresh r (2 - (i - 1)) ltac:(lia) Q1 Q2 RV') as (b' & Eb' & Vb). rewrite Eb' in Eb. injection Eb as <-.
    apply (counts_unique 5 5 _ _ _ Ct). exists (fun a c => of_bool (Bool.eqb (at2 m a c) (at2 b' a c))). split.
    - intros a c Ha Hc. destruct (at2 m a c), (at2 b' a c); cbn; split; intro; auto; congruence.
    - unfold rsum2. rewrite !rsum_five. rewrite !Vm, !Vb by lia.
      assert (i = 0 \/ i = 1 \/ i = 2) as [->|[->| ->]] by lia; cbn; ring. }
  f_equal. transitivity (clock_angle 1 3 2); [|rewrite angle3 by lia; reflexivity].
  apply (estimate_cone 1 3 count v 2 2); auto; try lia; try lra.
  intros i Hi. rewrite !Cv, !angle3 by lia. cbn [Z.sub Z.add Z.opp Z.pos_sub Pos.pred_double].
  assert (i = 0 \/ i = 1 \/ i = 2) as [->|[->| ->]] by lia; cbn.
  - rewrite Rabs_left by lra. lra.
  - rewrite Rabs_left by lra. lra.
  - rewrite Rabs_pos_eq by lra. lra.
Qed.
Lemma trial_symmetric n d c i : trial n d c (n - 1 - i) = (2 * c - trial n d c i)%R.
Proof. unfold trial. rewrite !minus_IZR. field. Qed.
Lemma best_trial_inside m n d x0 y0 x y : (0 < d)%R -> best_trial m n d x0 y0 x y ->
  (Rabs (x - x0) <= (IZR n - 1) / 2 * d)%R /\ (Rabs (y - y0) <= (IZR n - 1) / 2 * d)%R.
Proof.
  intros D (i & j & (Hi & Hj & _) & -> & ->). unfold trial.
  assert (K : forall k c, 0 <= k < n -> (Rabs (c + (IZR k - (IZR n - 1) / 2) * d - c) <= (IZR n - 1) / 2 * d)%R).
  { intros k c [K1 K2]. apply IZR_le in K1. assert (IZR k <= IZR n - 1)%R by (rewrite <- minus_IZR; apply IZR_le; lia).
    apply Rabs_le. split; nra. }
  split; apply K; auto.
Qed.
Lemma leaves_window : exists meas ref d y x, (0 < d)%R /\ forall lstsq, is_lstsq_oracle lstsq -> forall fuel rnd,
  compute_lateral_offsets lstsq fuel rnd meas ref 1 3 d 2 2 2 false 0 0 = Some (Ok (y, x)) /\ (d < x)%R.
Proof.
  exists swp22, ref22, turn4, 0%R, (3 / 2 * turn4)%R. destruct turn4_ok as [T _]. split; [lra|].
  intros lstsq O fuel rnd. split; [apply leaves; auto|lra].
Qed.
Lemma off_image : exists image x y, wf image /\
  coarsely_locate_pupil_offset 1 (fun v => v) image 2 3 = Some (Ok (x, y)) /\ ~ in_arr image (nr image / 2 + y) (nc image / 2 + x).
Proof.
  exists dark93, (-4), (-4). split; [split; cbn; lia|]. split; [exact dark_whole|]. intros [_ H]. cbn in H. lia.
Qed.
