(** Examples for the plate-scale search, the binary64 trial grid, and the images where the guess is not found. *)
From Coq Require Import ZArith Bool List String Reals Lra Lia Permutation Sorted.
From Flocq Require Import Core BinarySingleNaN.
From Coquelicot Require Import Complex.
From Verif.Base Require Import Py Arr Vec Sums CSum Trig F64.
From Verif.Model Require Import Fits Fresnel Mft Yaml DarkHole GainMap PsfFit PlateSolv.
From Verif.Spec Require Import FitsSpec MftSpec DarkHoleSpec PlateSolvSpec.
From Verif.Proofs Require Import FitsP FresnelP MftP DarkHoleP GainMapP PsfFitP PupilUtilC PlateSolvP PlateSolvQ.
Import ListNotations.
Open Scope string_scope.
Open Scope Z_scope.

(** ** The binary64 grid with the default settings and a guess of 3.5 *)
Definition g35 : f64 := fdiv (fofZ 7) (fofZ 2).
Definition w02 : f64 := fdiv (fofZ 1) (fofZ 5).
Lemma fval_sf x s : B2SF x = s -> fval x = SF2R radix2 s.
Proof. intros <-. symmetry. apply SF2R_B2SF. Qed.
Lemma quotient_35 : fval (fdiv (fsub (fadd g35 (fmul g35 w02)) (fsub g35 (fmul g35 w02))) (fdiv (fmul g35 w02) (fdiv (fofZ 10) (fofZ 2)))) =
  (5629499534213121 * / 562949953421312)%R.
Proof. erewrite fval_sf; [|vm_compute; reflexivity]. unfold SF2R, F2R; cbn [Fnum Fexp cond_Zopp]. f_equal. Qed.
Lemma trials_f64_length : Zceil (fval (fdiv (fsub (fadd g35 (fmul g35 w02)) (fsub g35 (fmul g35 w02))) (fdiv (fmul g35 w02) (fdiv (fofZ 10) (fofZ 2))))) = 11.
Proof. rewrite quotient_35. apply Zceil_imp. rewrite minus_IZR. split; lra. Qed.
Lemma trials_f64_count : List.length (trials_f64 g35 w02 (fofZ 10)) = 11%nat.
Proof. unfold trials_f64. rewrite map_length, trials_f64_length. reflexivity. Qed.
Lemma trials_f64_last : exists x, nth_error (trials_f64 g35 w02 (fofZ 10)) 10 = Some x /\ (fval g35 * (1 + fval w02) < fval x)%R.
Proof.
  unfold trials_f64. rewrite trials_f64_length. change (zrange 11) with [0;1;2;3;4;5;6;7;8;9;10]. cbn [map nth_error Z.eqb Pos.eqb].
  eexists. split; [reflexivity|]. erewrite (fval_sf g35), (fval_sf w02), (fval_sf (fadd _ _)); [|vm_compute; reflexivity ..].
  unfold SF2R, F2R; cbn [Fnum Fexp cond_Zopp]. change (bpow radix2 (-51)) with (/ 2251799813685248)%R. change (bpow radix2 (-55)) with (/ 36028797018963968)%R. change (bpow radix2 (-50)) with (/ 1125899906842624)%R. lra.
Qed.

(** ** One row of two pixels *)
Definition row2 (a b : R) : arr R := Arr 1 2 (fun _ j => if j =? 0 then a else b).
Definition row_v0 (a b g x : R) : R := ((a * cos (PI / g - PI / x) + b * cos (PI / x) + a + b) / (4 * g ^ 2))%R.
Definition row_v1 (a b g : R) : R := ((a * cos (PI / g) + a + 2 * b) / (4 * g ^ 2))%R.
Lemma csum2_12 f : csum2 f 1 2 = (f 0 0 + f 0 1)%C.
Proof. unfold csum2. rewrite csum_one. change 2 with (1 + 1). rewrite csum_succ, csum_one by lia. reflexivity. Qed.
Lemma rsum2_12 f : rsum2 f 1 2 = (f 0%Z 0%Z + f 0%Z 1%Z)%R.
Proof. unfold rsum2. rewrite rsum_one. change 2 with (1 + 1). rewrite rsum_succ, rsum_one by lia. reflexivity. Qed.
Lemma row_rescaled a b g x T : (0 < g)%R -> (0 < x)%R -> rescaled (row2 a b) g x T -> at2 T 0 0 = row_v0 a b g x /\ at2 T 0 1 = row_v1 a b g.
Proof.
  intros Hg Hx (F & F1 & F2 & FV & A & B & TV). cbn [row2 nr nc] in *. change (Z.max 1 2) with 2 in *.
  rewrite !TV. unfold fourier_sum. rewrite F1, F2, !csum2_12, !FV. unfold fourier_sum. cbn [row2 amap nr nc at2 Z.eqb]. rewrite !csum2_12.
  change (1 / 2) with 0. change (2 / 2) with 1. change (0 - 0) with 0. change (0 - 1) with (-1). change (1 - 1) with 0. change (if 1 =? 0 then a else b) with b. change (if 0 =? 0 then a else b) with a.
  match goal with |- ?G1 /\ ?G2 => idtac end.
  assert (C1 : cis (1 * 2 * PI * (0 / 2 * (0 / g) + -1 / 2 * (-1 / g))) = cis (PI / g)) by (f_equal; field; lra).
  assert (C2 : cis (-1 * 2 * PI * (0 / x * (0 / 2) + -1 / x * (-1 / 2))) = cis (- (PI / x))) by (f_equal; field; lra).
  assert (C3 : cis (1 * 2 * PI * (0 / 2 * (0 / g) + -1 / 2 * (0 / g))) = RtoC 1) by (rewrite <- cis_0; f_equal; field; lra).
  assert (C4 : cis (1 * 2 * PI * (0 / 2 * (0 / g) + 0 / 2 * (-1 / g))) = RtoC 1) by (rewrite <- cis_0; f_equal; field; lra).
  assert (C5 : cis (1 * 2 * PI * (0 / 2 * (0 / g) + 0 / 2 * (0 / g))) = RtoC 1) by (rewrite <- cis_0; f_equal; field; lra).
  assert (D3 : cis (-1 * 2 * PI * (0 / x * (0 / 2) + -1 / x * (0 / 2))) = RtoC 1) by (rewrite <- cis_0; f_equal; field; lra).
  assert (D4 : cis (-1 * 2 * PI * (0 / x * (0 / 2) + 0 / x * (-1 / 2))) = RtoC 1) by (rewrite <- cis_0; f_equal; field; lra).
  assert (D5 : cis (-1 * 2 * PI * (0 / x * (0 / 2) + 0 / x * (0 / 2))) = RtoC 1) by (rewrite <- cis_0; f_equal; field; lra).
  rewrite C1, C2, C3, C4, C5, D3, D4, D5. unfold row_v0, row_v1.
  rewrite cos_minus. unfold cis, RtoC, Cmult, Cplus, Re. cbn [fst snd]. rewrite cos_neg, sin_neg. split; field; lra.
Qed.
Lemma row_percentile a v : nr a = 1 -> nc a = 2 -> is_percentile a 100 v -> v = Rmax (at2 a 0 0) (at2 a 0 1).
Proof.
  intros E1 E2 (s & k & P & S & K & T & ->). unfold elements in P. rewrite E1, E2 in P. cbn in P.
  assert (L : List.length s = 2%nat) by (rewrite <- (Permutation_length P); reflexivity). rewrite L in T. change (Z.of_nat 2) with 2 in T.
  assert (k = 1). { assert (IZR k <= 1)%R by (cbn zeta in T; lra). assert (0 < IZR k)%R by (cbn zeta in T; lra). apply le_IZR in H. apply lt_IZR in H0. lia. }
  subst k. rewrite L. change (Z.of_nat 2) with 2. replace (100 / 100 * (2 - 1) - 1)%R with 0%R by field.
  destruct s as [|y0 [|y1 [|]]]; try discriminate. change (Z.to_nat 1) with 1%nat. cbn [nth].
  assert (y0 <= y1)%R by (inversion S as [|? ? ? F]; inversion F; auto).
  apply Permutation_length_2_inv in P as [Q|Q]; injection Q as -> ->.
  - rewrite Rmax_right by auto. ring.
  - rewrite Rmax_left by auto. ring.
Qed.
Lemma row_spread f r : spread f 1 2 r -> r = (Rabs (f 0%Z 0%Z - f 0%Z 1%Z) / 2)%R.
Proof.
  intros (m & A & B & C). rewrite rsum2_12 in *. apply Rsqr_inj; [auto|apply Rmult_le_pos; [apply Rabs_pos|lra]|].
  assert (E : m = ((f 0%Z 0%Z + f 0%Z 1%Z) / 2)%R) by lra. subst m. rewrite Rsqr_div'. rewrite <- Rsqr_abs. rewrite !Rsqr_pow2. lra.
Qed.
Lemma row_max (a : arr R) v : nr a = 1 -> nc a = 2 -> is_max a v -> v = Rmax (at2 a 0 0) (at2 a 0 1).
Proof.
  intros E1 E2 [(i & j & [I J] & <-) M]. assert (M0 := M 0 0). assert (M1 := M 0 1).
  assert (i = 0) by lia. subst i. assert (j = 0 \/ j = 1) as [-> | ->] by lia.
  - rewrite Rmax_left; [reflexivity|apply M1; split; lia].
  - rewrite Rmax_right; [reflexivity|apply M0; split; lia].
Qed.
(** Residual of the guess (a, b) against the image (c, d). *)
Lemma row_residual a b c d g x r : (0 < g)%R -> (0 < x)%R -> residual (row2 c d) (row2 a b) g 100 x r ->
  let T0 := row_v0 a b g x in let T1 := row_v1 a b g in
  (Rmax T0 T1 <> 0 -> Rmax a b <> 0 -> r = Some (Rabs ((T0 - T1) * (Rmax c d / Rmax T0 T1) - (c - d)) / Rabs (Rmax a b) / 2))%R.
Proof.
  intros Hg Hx (T & mv & tv & gm & RT & M1 & M2 & M3 & V) T0 T1 N1 N2. destruct (row_rescaled a b g x T Hg Hx RT) as [V0 V1]. fold T0 in V0. fold T1 in V1.
  destruct RT as (F & _ & _ & _ & A & B & _). cbn [row2 nr nc] in A, B.
  apply row_percentile in M1; [|reflexivity|reflexivity]. apply row_percentile in M2; auto. apply row_max in M3; [|reflexivity|reflexivity].
  cbn [row2 at2 Z.eqb] in M1, M3. rewrite V0, V1 in M2. subst mv tv gm.
  destruct r as [r|]; [|tauto]. destruct V as (_ & _ & V). cbn [row2 nr nc at2] in V. apply row_spread in V. cbn [Z.eqb] in V. rewrite V0, V1 in V. f_equal. rewrite V. f_equal.
  match goal with |- _ = (?X / ?Y)%R => change (X / Y)%R with (X * / Y)%R end. rewrite <- Rabs_inv, <- Rabs_mult. f_equal. field. split; auto.
Qed.

(** A spline that returns the recorded value at the knots and zero elsewhere. *)
Fixpoint knots (xs ys : list R) (x : R) : R :=
  match xs, ys with
  | a :: xs', v :: ys' => if Req_EM_T x a then v else knots xs' ys' x
  | _, _ => 0%R
  end.
Lemma knots_pass : passes_knots knots.
Proof.
  intros xs ys i ND L _ H. clear - ND L H. revert ys i L H. induction ND as [|a xs N ND IH]; intros [|v ys] i L H; try discriminate; cbn [List.length] in *; [lia|].
  cbn [knots]. destruct i as [|i]; cbn [nth].
  - destruct (Req_EM_T a a); [reflexivity|congruence].
  - destruct (Req_EM_T (nth i xs 0%R) a) as [Q|_]; [exfalso; apply N; rewrite <- Q; apply nth_In; lia|]. apply IH; lia.
Qed.
Lemma knots_homogeneous : homogeneous knots.
Proof.
  intros k xs. induction xs as [|a xs IH]; intros [|v ys] x; cbn [knots map]; try ring. destruct (Req_EM_T x a); [reflexivity|apply IH].
Qed.
Definition ps_file : yval := YDict [("ps_wid", YReal (1 / 2)); ("n_trials", YInt 4); ("percentile_val", YInt 100); ("interp_step_size", YReal (1 / 2))].
Lemma ps_file_params : ps_params ps_file (1 / 2) 4 100 (1 / 2).
Proof.
  split; [|split; [|split]]; apply real_item; eexists; (split; [reflexivity|reflexivity]).
Qed.
Lemma zceil_4 : Zceil 4 = 4. Proof. apply Zceil_IZR. Qed.
Lemma scales4 : map (trial_scale 2 (1 / 2) 4) (zrange 4) = [1; 3 / 2; 2; 5 / 2]%R.
Proof. change (zrange 4) with [0; 1; 2; 3]. cbn [map]. unfold trial_scale. repeat (apply f_equal2; [field|]). reflexivity. Qed.

Lemma row_accepts spline a b c d : exists o, platesolv spline (row2 c d) (row2 a b) 2 ps_file = Ok o.
Proof.
  apply platesolv_accepts with (1 / 2)%R 4%R 100%R (1 / 2)%R; try lra; try reflexivity; [apply ps_file_params|rewrite zceil_4; lia|].
  rewrite zceil_4. intros i Hi. assert (0 <= IZR i)%R by (apply IZR_le; lia). unfold trial_scale. lra.
Qed.
Lemma row_run spline a b c d best pix rs : passes_knots spline -> platesolv spline (row2 c d) (row2 a b) 2 ps_file = Ok (best, pix, rs) ->
  pix = [1; 3 / 2; 2; 5 / 2]%R /\ exists r1 r2 r3 r4, rs = [r1; r2; r3; r4] /\
  residual (row2 c d) (row2 a b) 2 100 1 r1 /\ residual (row2 c d) (row2 a b) 2 100 (3 / 2) r2 /\ residual (row2 c d) (row2 a b) 2 100 2 r3 /\ residual (row2 c d) (row2 a b) 2 100 (5 / 2) r4 /\
  forall v1 v2 v3 v4, r1 = Some v1 -> r2 = Some v2 -> r3 = Some v3 -> r4 = Some v4 ->
    forall x, In x best <-> ((x = 1 /\ v1 <= v2 /\ v1 <= v3) \/ (x = 3 / 2 /\ v2 <= v1 /\ v2 <= v3) \/ (x = 2 /\ v3 <= v1 /\ v3 <= v2))%R.
Proof.
  intros HS H. apply platesolv_ok in H as (_ & _ & _ & _ & w & n & p & st & lo & hi & PS & W & P & St & Px & N4 & _ & RS & Lo & Hi & _ & BS).
  assert (U : forall k x y, has_real ps_file k x -> has_real ps_file k y -> x = y).
  { intros k x y (u & A & B) (u' & A' & B'). apply item_has in A, A'. apply number_ok in B, B'. congruence. }
  destruct PS as (W1 & W2 & W3 & W4), ps_file_params as (V1 & V2 & V3 & V4). rewrite (U _ _ _ W1 V1), (U _ _ _ W2 V2), (U _ _ _ W3 V3), (U _ _ _ W4 V4) in *. clear w n p st W1 W2 W3 W4 V1 V2 V3 V4 W P U.
  rewrite zceil_4, scales4 in Px. split; [auto|]. subst pix. 
  inversion RS as [|? r1 ? ? R1 RS1]; subst. inversion RS1 as [|? r2 ? ? R2 RS2]; subst. inversion RS2 as [|? r3 ? ? R3 RS3]; subst. inversion RS3 as [|? r4 ? ? R4 RS4]; subst. inversion RS4; subst.
  exists r1, r2, r3, r4. split; [auto|]. do 4 (split; [auto|]). intros v1 v2 v3 v4 -> -> -> -> x.
  assert (lo = 1%R). { destruct Lo as [I L]. specialize (L 1%R (or_introl eq_refl)). cbn in I. lra. }
  assert (hi = (5 / 2)%R). { destruct Hi as [I L]. specialize (L (5 / 2)%R). cbn in I, L. assert (5 / 2 <= hi)%R by (apply L; auto). lra. }
  subst lo hi. destruct (BS [v1; v2; v3; v4] eq_refl) as [_ B]. rewrite B.
  assert (G : forall y, on_grid 1 (5 / 2) (1 / 2) y <-> (y = 1 \/ y = 3 / 2 \/ y = 2)%R).
  { intros y. split.
    - intros (k & K & -> & L). assert (k < 3) by (apply lt_IZR; lra). assert (k = 0 \/ k = 1 \/ k = 2) as [-> | [-> | ->]] by lia; lra.
    - intros [-> | [-> | ->]]; [exists 0|exists 1|exists 2]; (split; [lia|]; lra). }
  assert (ND : NoDup [1; 3 / 2; 2; 5 / 2]%R).
  { repeat constructor; cbn [In]; intros Q; repeat (destruct Q as [Q|Q]; [lra|]); auto. }
  assert (K : forall i, (i < 4)%nat -> spline [1; 3 / 2; 2; 5 / 2]%R [v1; v2; v3; v4] (nth i [1; 3 / 2; 2; 5 / 2]%R 0%R) = nth i [v1; v2; v3; v4] 0%R).
  { intros i Hi'. apply HS; cbn [List.length]; auto with arith. }
  pose proof (K 0%nat ltac:(lia)) as K0. pose proof (K 1%nat ltac:(lia)) as K1. pose proof (K 2%nat ltac:(lia)) as K2. cbn [nth] in K0, K1, K2.
  rewrite G. split.
  - intros [[-> | [-> | ->]] M]; [left|right; left|right; right]; (split; [reflexivity|]).
    + pose proof (M _ (proj2 (G (3 / 2)%R) ltac:(auto))). pose proof (M _ (proj2 (G 2%R) ltac:(auto))). lra.
    + pose proof (M _ (proj2 (G 1%R) ltac:(auto))). pose proof (M _ (proj2 (G 2%R) ltac:(auto))). lra.
    + pose proof (M _ (proj2 (G (3 / 2)%R) ltac:(auto))). pose proof (M _ (proj2 (G 1%R) ltac:(auto))). lra.
  - intros [(-> & Q1 & Q2) | [(-> & Q1 & Q2) | (-> & Q1 & Q2)]]; (split; [auto|]); intros y Hy; apply G in Hy as [-> | [-> | ->]]; lra.
Qed.
Lemma v0_2 a b x : row_v0 a b 2 x = ((a * sin (PI / x) + b * cos (PI / x) + a + b) / 16)%R.
Proof. unfold row_v0. rewrite cos_shift. field. Qed.
Lemma v1_2 a b : row_v1 a b 2 = ((a + 2 * b) / 16)%R.
Proof. unfold row_v1. rewrite cos_PI2. field. Qed.
Lemma angle_1 : (PI / 1 = PI)%R. Proof. field. Qed.
Lemma angle_32 : (PI / (3 / 2) = 2 * (PI / 3))%R. Proof. field. Qed.
Definition h3 : R := (sqrt 3 / 2)%R.
Lemma h3_val : (0 < h3 /\ h3 * h3 = 3 / 4)%R.
Proof. unfold h3. pose proof (sqrt_lt_R0 3 ltac:(lra)). pose proof (sqrt_sqrt 3 ltac:(lra)). split; nra. Qed.
Lemma v0_1 a b : row_v0 a b 2 1 = (a / 16)%R.
Proof. rewrite v0_2, angle_1, sin_PI, cos_PI. field. Qed.
Lemma v0_32 a b : row_v0 a b 2 (3 / 2) = ((a * (1 + h3) + b / 2) / 16)%R.
Proof. rewrite v0_2, angle_32, sin_2PI3, cos_2PI3. unfold h3. field. Qed.
Lemma v0_22 a b : row_v0 a b 2 2 = ((2 * a + b) / 16)%R.
Proof. rewrite v0_2, sin_PI2, cos_PI2. field. Qed.
Lemma max_pos a b : (0 < b)%R -> (Rmax a b <> 0)%R.
Proof. intros H. pose proof (Rmax_r a b). lra. Qed.
Lemma max_posl a b : (0 < a)%R -> (Rmax a b <> 0)%R.
Proof. intros H. pose proof (Rmax_l a b). lra. Qed.

(** The guess (1, 0), recorded as (2, 1): its own scale fits exactly. *)
Lemma good_run spline best pix rs : passes_knots spline -> platesolv spline (row2 2 1) (row2 1 0) 2 ps_file = Ok (best, pix, rs) -> forall x, In x best <-> x = 2%R.
Proof.
  intros HS H. destruct (row_run spline 1 0 2 1 best pix rs HS H) as (_ & r1 & r2 & r3 & r4 & _ & R1 & R2 & R3 & R4 & B).
  apply row_residual in R1, R2, R3, R4; try lra; rewrite ?v1_2; try (apply max_pos; lra); try (apply max_posl; lra).
  rewrite v0_1, v1_2 in R1. rewrite v0_32, v1_2 in R2. rewrite v0_22, v1_2 in R3. destruct h3_val as [h1 h2]. set (h := h3) in *. clearbody h. clear H HS.
  specialize (B _ _ _ _ R1 R2 R3 R4). clear R1 R2 R3 R4. rewrite (Rmax_left 2 1) in B by lra. rewrite (Rmax_left 1 0) in B by lra.
  rewrite (Rmax_left (1 / 16) ((1 + 2 * 0) / 16)) in B by lra. rewrite (Rmax_left ((1 * (1 + h) + 0 / 2) / 16)) in B by lra. rewrite (Rmax_left ((2 * 1 + 0) / 16)) in B by lra.
  rewrite (Rabs_right 1) in B by lra.
  replace ((1 / 16 - (1 + 2 * 0) / 16) * (2 / (1 / 16)) - (2 - 1))%R with (-1)%R in B by field.
  replace (((2 * 1 + 0) / 16 - (1 + 2 * 0) / 16) * (2 / ((2 * 1 + 0) / 16)) - (2 - 1))%R with 0%R in B by field.
  replace (((1 * (1 + h) + 0 / 2) / 16 - (1 + 2 * 0) / 16) * (2 / ((1 * (1 + h) + 0 / 2) / 16)) - (2 - 1))%R with ((h - 1) / (1 + h))%R in B by (field; lra).
  rewrite Rabs_R0, (Rabs_left (-1)) in B by lra. assert (Q : (0 < Rabs ((h - 1) / (1 + h)))%R).
  { apply Rabs_pos_lt. intros Q. assert (h - 1 = 0)%R. { replace (h - 1)%R with ((h - 1) / (1 + h) * (1 + h))%R by (field; lra). rewrite Q. ring. } nra. }
  intros x. rewrite B. split.
  - intros [(_ & ? & ?) | [(_ & ? & ?) | (-> & _)]]; lra.
  - intros ->. right. right. split; [reflexivity|]. lra.
Qed.
(** The guess (1, 2) compared with itself. *)
Lemma bad_run spline best pix rs : passes_knots spline -> platesolv spline (row2 1 2) (row2 1 2) 2 ps_file = Ok (best, pix, rs) -> forall x, In x best <-> x = (3 / 2)%R.
Proof.
  intros HS H. destruct (row_run spline 1 2 1 2 best pix rs HS H) as (_ & r1 & r2 & r3 & r4 & _ & R1 & R2 & R3 & R4 & B).
  apply row_residual in R1, R2, R3, R4; try lra; rewrite ?v1_2; try (apply max_pos; lra); try (apply max_posl; lra).
  rewrite v0_1, v1_2 in R1. rewrite v0_32, v1_2 in R2. rewrite v0_22, v1_2 in R3. destruct h3_val as [h1 h2]. set (h := h3) in *. clearbody h. clear H HS.
  specialize (B _ _ _ _ R1 R2 R3 R4). clear R1 R2 R3 R4. rewrite (Rmax_right 1 2) in B by lra.
  assert (h < 1)%R by nra. assert (4 / 5 < h)%R by nra.
  rewrite (Rmax_right (1 / 16)) in B by lra. rewrite (Rmax_right ((1 * (1 + h) + 2 / 2) / 16)) in B by lra. rewrite (Rmax_right ((2 * 1 + 2) / 16)) in B by lra.
  rewrite (Rabs_right 2) in B by lra.
  replace ((1 / 16 - (1 + 2 * 2) / 16) * (2 / ((1 + 2 * 2) / 16)) - (1 - 2))%R with (- (3 / 5))%R in B by field.
  replace (((2 * 1 + 2) / 16 - (1 + 2 * 2) / 16) * (2 / ((1 + 2 * 2) / 16)) - (1 - 2))%R with (3 / 5)%R in B by field.
  replace (((1 * (1 + h) + 2 / 2) / 16 - (1 + 2 * 2) / 16) * (2 / ((1 + 2 * 2) / 16)) - (1 - 2))%R with ((2 * h - 1) / 5)%R in B by field.
  rewrite Rabs_Ropp, (Rabs_right (3 / 5)), (Rabs_right ((2 * h - 1) / 5)) in B by lra.
  intros x. rewrite B. split.
  - intros [(_ & ? & ?) | [(-> & ? & ?) | (_ & ? & ?)]]; lra.
  - intros ->. right. left. split; [reflexivity|]. lra.
Qed.

(** ** Critical sampling: the guess image comes back unchanged *)
Lemma critical guess n T : nr guess = n -> nc guess = n -> 0 < n -> rescaled guess 1 1 T -> forall i j, in_arr guess i j -> at2 T i j = at2 guess i j.
Proof.
  intros E1 E2 Hn (F & F1 & F2 & FV & A & B & TV) i j I. rewrite E1, E2, Z.max_id in *.
  set (e := amap RtoC guess). assert (W : wf e) by (split; cbn [e amap nr nc]; lia).
  assert (Hn' : (0 < IZR n)%R) by (apply IZR_lt; auto).
  destruct (do_mft_ok e n n 1 (IZR n)) as (M & EM & M1 & M2 & MV); cbn [e amap nr nc]; try lia; try lra.
  assert (Ne : nr e = n /\ nc e = n) by (cbn [e amap nr nc]; auto). destruct Ne as [N1 N2].
  destruct (imft_mft e n 1 (IZR n) M) as (o & EO & QO); auto; try lia; try lra.
  destruct (do_imft_ok M (nr e) (nc e) 1 (IZR n)) as (o' & EO' & O1 & O2 & OV); try lia; try lra.
  assert (o' = o) by congruence. subst o'. destruct QO as (_ & _ & QO).
  assert (CE : forall u v, Cconj (at2 e u v) = at2 e u v) by (intros; cbn [e amap at2]; apply Cconj_R).
  (* the pupil field is the conjugate of the forward transform, times n^2 *)
  assert (FM : forall u v, at2 F u v = (RtoC (IZR n ^ 2) * Cconj (at2 M u v))%C).
  { intros u v. rewrite FV, MV. unfold fourier_sum. cbn [e amap nr nc]. rewrite E1, E2. rewrite Cconj_mult', csum2_conj, Cconj_R.
    rewrite (csum2_ext _ (fun i j => Cconj (at2 (amap RtoC guess) i j * cis (-1 * 2 * PI * (IZR (u - n / 2) / 1 * (IZR (i - n / 2) / IZR n) + IZR (v - n / 2) / 1 * (IZR (j - n / 2) / IZR n)))))%C).
    2:{ intros i' j' _ _. rewrite Cconj_mult', cis_conj. cbn [amap at2]. rewrite Cconj_R. f_equal. f_equal. field. lra. }
    rewrite <- !RtoC_mult || idtac. set (S := csum2 _ n n). replace (RtoC (/ 1 ^ 2)) with (RtoC (IZR n ^ 2) * RtoC (/ IZR n ^ 2))%C; [ring|].
    rewrite <- RtoC_mult. f_equal. field. lra. }
  assert (at2 o i j = at2 e i j) by (apply QO; destruct I; split; cbn [e amap nr nc]; lia).
  rewrite TV. replace (at2 guess i j) with (Re (Cconj (at2 o i j))). 2:{ rewrite H. cbn [e amap at2]. rewrite Cconj_R. reflexivity. }
  f_equal. rewrite OV. unfold fourier_sum. rewrite F1, F2, M1, M2, Cconj_mult', csum2_conj, Cconj_R. cbn [e amap nr nc]. rewrite E1, E2.
  rewrite (csum2_ext _ (fun i0 j0 => RtoC (IZR n ^ 2) * Cconj (at2 M i0 j0 * cis (1 * 2 * PI * (IZR (i - n / 2) / IZR n * (IZR (i0 - n / 2) / 1) + IZR (j - n / 2) / IZR n * (IZR (j0 - n / 2) / 1)))))%C).
  2:{ intros i' j' _ _. rewrite FM, Cconj_mult', cis_conj, Cmult_assoc. f_equal. f_equal. field. lra. }
  rewrite csum2_scal. set (S := csum2 _ n n). replace (RtoC (/ 1 ^ 2)) with (RtoC (IZR n ^ 2) * RtoC (/ IZR n ^ 2))%C; [ring|].
  rewrite <- RtoC_mult. f_equal. field. lra.
Qed.
Lemma critical_zero spline img guess n consts best pix rs k p v m nt : platesolv spline img guess 1 consts = Ok (best, pix, rs) ->
  nr guess = n -> nc guess = n -> (0 <= k)%R -> (forall i j, in_arr img i j -> at2 img i j = (k * at2 guess i j)%R) ->
  has_real consts "percentile_val" p -> is_percentile guess p v -> v <> 0%R -> is_max guess m -> m <> 0%R ->
  has_real consts "n_trials" (IZR (2 * Z.of_nat nt)) ->
  nth_error pix nt = Some 1%R /\ nth_error rs nt = Some (Some 0%R).
Proof.
  intros H E1 E2 Hk V Hp Pv Nv Mm Nm Nt. pose proof H as H0.
  apply platesolv_ok in H as (Hg & S & H1 & H2 & w & n' & p' & st & lo & hi & (PW & PN & PP & PS) & W0 & P & St & Px & N4 & Pos & RS & _).
  assert (U : forall c k x y, has_real c k x -> has_real c k y -> x = y).
  { intros c k' x y (u & A & B) (u' & A' & B'). apply item_has in A, A'. apply number_ok in B, B'. congruence. }
  rewrite (U _ _ _ _ PN Nt) in *. rewrite (U _ _ _ _ PP Hp) in *. rewrite Zceil_IZR in *.
  assert (X : nth_error pix nt = Some 1%R).
  { rewrite Px, nth_error_map. assert (Z : nth_error (zrange (2 * Z.of_nat nt)) nt = Some (Z.of_nat nt)).
    { unfold zrange. rewrite nth_error_map. replace (Z.to_nat (2 * Z.of_nat nt)) with (nt + nt)%nat by lia. rewrite nth_error_nth' with (d := 0%nat) by (rewrite seq_length; lia). rewrite seq_nth by lia. reflexivity. }
    rewrite Z. cbn [option_map]. f_equal. unfold trial_scale. rewrite mult_IZR. field. apply not_0_IZR. lia. }
  split; [auto|]. apply same_shape_iff in S as [S1 S2].
  assert (Q : forall l r i x, Forall2 (residual img guess 1 p) l r -> nth_error l i = Some x -> exists v, nth_error r i = Some v /\ residual img guess 1 p x v).
  { clear. intros l r i x F. revert i. induction F as [|a b c d E F IH]; intros [|i] Hi; cbn in *; try discriminate; [injection Hi as ->; eauto|auto]. }
  destruct (Q _ _ _ _ RS X) as (r & ER & R). rewrite ER. f_equal.
  pose proof R as (T & mv & tv & gm & RT & M1 & M2 & M3 & V').
  assert (TG := critical guess n T E1 E2 ltac:(lia) RT). pose proof RT as (F & _ & _ & _ & T1 & T2 & _).
  assert (is_percentile T p (1 * v)). { apply (is_percentile_scale 1 guess T); auto; try lra. intros i j I. rewrite TG by auto. ring. }
  pose proof (is_percentile_unique _ _ _ _ M2 H). pose proof (is_max_unique _ _ _ M3 Mm). 
  destruct r as [r|]; [|exfalso; destruct V' as [V'|V']; [apply Nv|apply Nm]; lra]. f_equal.
  apply (matching_residual img guess 1 p 1 T k r); auto; try lia. intros i j I. rewrite TG by (destruct I; split; lia). auto.
Qed.
Definition corner : arr R := Arr 2 2 (fun i j => if (i =? 0) && (j =? 0) then 2 else 1)%R.
Lemma corner_percentile : is_percentile corner 100 2.
Proof.
  exists [1; 1; 1; 2]%R, 3. split.
  - cbn. apply (Permutation_cons_append [1; 1; 1]%R 2%R).
  - split; [repeat constructor; lra|]. cbn [List.length]. change (Z.of_nat 4) with 4. split; [lia|]. change (Z.to_nat 3) with 3%nat. change (Z.to_nat (3 + 1)) with 4%nat. cbn [nth]. lra.
Qed.
Lemma corner_max : is_max corner 2.
Proof.
  split; [exists 0, 0; split; [split; cbn; lia|reflexivity]|]. intros i j _. cbn [corner at2]. destruct ((i =? 0) && (j =? 0)); lra.
Qed.
Lemma corner_run spline : exists best pix rs, platesolv spline (amap (Rmult 3) corner) corner 1 ps_file = Ok (best, pix, rs).
Proof.
  destruct (platesolv_accepts spline (amap (Rmult 3) corner) corner 1 ps_file (1 / 2) 4 100 (1 / 2)) as [[[best pix] rs] E]; try lra; try reflexivity; [apply ps_file_params|rewrite zceil_4; lia| |eauto].
  rewrite zceil_4. intros i Hi. assert (0 <= IZR i)%R by (apply IZR_le; lia). unfold trial_scale. lra.
Qed.
Lemma corner_example : forall spline, exists best pix rs, platesolv spline (amap (Rmult 3) corner) corner 1 ps_file = Ok (best, pix, rs) /\
  is_percentile corner 100 2 /\ is_max corner 2 /\ has_real ps_file "n_trials" (IZR (2 * Z.of_nat 2)).
Proof.
  intros spline. destruct (corner_run spline) as (b & p & r & E). exists b, p, r. split; [auto|]. split; [apply corner_percentile|]. split; [apply corner_max|].
  apply ps_file_params.
Qed.
Lemma self_refuted : forall spline, passes_knots spline ->
  (exists o, platesolv spline (row2 1 2) (row2 1 2) 2 ps_file = Ok o) /\
  forall best pix rs, platesolv spline (row2 1 2) (row2 1 2) 2 ps_file = Ok (best, pix, rs) ->
    pix = [1; 3 / 2; 2; 5 / 2]%R /\ forall x, In x best <-> x = (3 / 2)%R.
Proof.
  intros s H. split; [apply row_accepts|]. intros b p r E. split; [apply (row_run s 1 2 1 2 b p r H E)|]. apply (bad_run s b p r H E).
Qed.
Lemma float_trials : exists g w n : f64, fval g = (7 / 2)%R /\ fval n = 10%R /\ w = fdiv (fofZ 1) (fofZ 5) /\
  List.length (trials_f64 g w n) = 11%nat /\
  exists x, In x (trials_f64 g w n) /\ (fval g * (1 + fval w) < fval x)%R.
Proof.
  exists g35, w02, (fofZ 10). split.
  - erewrite (fval_sf g35); [|vm_compute; reflexivity]. unfold SF2R, F2R; cbn [Fnum Fexp cond_Zopp]. change (bpow radix2 (-51)) with (/ 2251799813685248)%R. lra.
  - split; [apply fofZ_spec; lia|]. split; [reflexivity|]. split; [apply trials_f64_count|].
    destruct trials_f64_last as (x & A & B). exists x. split; [eapply nth_error_In; eauto|auto].
Qed.
