(** Two satellite spots around a star at one pixel from the centre, with the star's position as the guess. *)
From Coq Require Import ZArith Bool List String Reals Lra Lia.
From Verif.Base Require Import Py Arr Vec Sums Lstsq.
From Verif.Model Require Import Math Noll Fits Shapes Yaml DarkHole FocalFit PsfFit PupilUtil Occastro.
From Verif.Spec Require Import ShapesSpec DarkHoleSpec FocalFitSpec FitsSpec PsfFitSpec PupilUtilSpec OccastroSpec.
From Verif.Proofs Require Import FitsP ShapesP DarkHoleP FocalFitP QuadFitP OccastroP.
Import ListNotations.
Open Scope string_scope.
Open Scope Z_scope.

Definition bump (c i j : Z) : Z := Z.max 0 (2 - (i - 4) ^ 2 - (j - c) ^ 2).
Definition two_spots : arr R := Arr 9 9 (fun i j => IZR (bump 3 i j + bump 7 i j)).
Definition spots_file (key : string) : yval := YDict [(key, YInt 2); ("roiRadiusPix", YReal (1 / 2)); ("probeRotVecDeg", YList [YInt 0]);
  ("nSubpixels", YInt 1); ("nSteps", YInt 3); ("stepSize", YInt 1); ("nIter", YInt 1)].
Definition spots_tuning : spots := Spots 2 (1 / 2) [0%R] 1 3 1 1.
Ltac find_entry := repeat (first [apply entry_here | apply entry_later; [discriminate|]]).
Ltac find_key := eexists; split; [eexists; split; [reflexivity|find_entry]|constructor].
Lemma spots_file_ok key : key = "spotSepPix" \/ key = "spotSepGuessPix" -> describes_spots key (spots_file key) spots_tuning.
Proof.
  intros [-> | ->]; unfold describes_spots, spots_file, spots_tuning; cbn [s_sep s_radius s_angles s_sub s_steps s_step s_iter]; repeat split; try lra; try lia; try (solve [find_key]).
  - exists [YInt 0]. split; [eexists; split; [reflexivity|find_entry]|repeat constructor].
  - exists [YInt 0]. split; [eexists; split; [reflexivity|find_entry]|repeat constructor].
Qed.
Lemma bump_out i j c : 2 <= c <= 7 -> ~ (0 <= i < 9 /\ 0 <= j < 9) -> bump c i j = 0.
Proof. intros Hc H. unfold bump. apply Z.max_l. assert ((i - 4) ^ 2 >= 4 \/ (j - c) ^ 2 >= 2) by nia. nia. Qed.
Lemma two_spots_pixel i j : pixel two_spots i j = IZR (bump 3 i j + bump 7 i j).
Proof.
  unfold pixel. destruct (in_arrb two_spots i j) eqn:E; [reflexivity|].
  assert (N : ~ in_arr two_spots i j) by (intros Q; apply in_arrb_spec in Q; congruence).
  rewrite !bump_out by (try lia; exact N). reflexivity.
Qed.
Lemma two_spots_symmetric : point_symmetric two_spots 2 0.
Proof.
  intros i j. rewrite !two_spots_pixel. cbn [nr nc two_spots]. change (9 / 2) with 4. f_equal. unfold bump.
  replace ((2 * 4 + 0 - i - 4) ^ 2) with ((i - 4) ^ 2) by ring. replace ((2 * 4 + 2 - j - 3) ^ 2) with ((j - 7) ^ 2) by ring.
  replace ((2 * 4 + 2 - j - 7) ^ 2) with ((j - 3) ^ 2) by ring. ring.
Qed.
Lemma cov_pixel a b i j : cov (1 / 2) 1 (px 9 (IZR a) j) (px 9 (IZR b) i) = (if (i =? 4 + b) && (j =? 4 + a) then 1 else 0)%R.
Proof.
  unfold cov, gray, rsum2. rewrite !rsum_one. rewrite !xUp_sub by lia. change (IZR (1 * 1)) with 1%R.
  replace (sub 1 0) with 0%R by (unfold sub; field). rewrite !Rplus_0_l. unfold inside_disc, px. change (9 / 2) with 4.
  rewrite <- !minus_IZR.
  destruct ((i =? 4 + b) && (j =? 4 + a)) eqn:E.
  - apply andb_prop in E as [E1 E2]. apply Z.eqb_eq in E1, E2. subst. replace (4 + a - 4 - a) with 0 by lia. replace (4 + b - 4 - b) with 0 by lia.
    rewrite (proj2 (Rleb_iff _ _)) by lra. lra.
  - rewrite (proj2 (Rleb_false _ _)); [lra|]. 
    assert (N : (1 <= (j - 4 - a) ^ 2 + (i - 4 - b) ^ 2)).
    { apply andb_false_iff in E as [E|E]; apply Z.eqb_neq in E; nia. }
    apply IZR_le in N. rewrite plus_IZR in N. rewrite !(pow_IZR _ 2). change (Z.of_nat 2) with 2. lra.
Qed.
Lemma two_spots_val a b : 0 <= 4 + a < 9 -> 0 <= 4 + b < 9 -> spot_val two_spots (1 / 2) 1 (IZR a) (IZR b) = IZR (bump 3 (4 + b) (4 + a) + bump 7 (4 + b) (4 + a)).
Proof.
  intros Ha Hb. unfold spot_val. cbn [nr nc two_spots].
  rewrite (rsum2_ext _ (fun i j => if (i =? 4 + b) && (j =? 4 + a) then at2 two_spots i j else 0%R)).
  - rewrite rsum2_delta by auto. reflexivity.
  - intros i j _ _. rewrite cov_pixel. destruct ((i =? 4 + b) && (j =? 4 + a)); ring.
Qed.
Lemma two_spots_flux u v : -1 <= u <= 1 -> -1 <= v <= 1 ->
  pairs_val two_spots (1 / 2) 1 2 (1 + IZR u) (IZR v) [0%R] = (4 - 2 * IZR u ^ 2 - 2 * IZR v ^ 2)%R.
Proof.
  intros Hu Hv. cbn [pairs_val]. replace (deg 0) with 0%R by (unfold deg; field). rewrite cos_0, sin_0.
  replace (1 + IZR u + 2 * 1)%R with (IZR (3 + u)) by (rewrite plus_IZR; ring). replace (1 + IZR u - 2 * 1)%R with (IZR (u - 1)) by (rewrite minus_IZR; ring).
  replace (IZR v + 2 * 0)%R with (IZR v) by ring. replace (IZR v - 2 * 0)%R with (IZR v) by ring.
  rewrite !two_spots_val by lia. unfold bump.
  assert (u = -1 \/ u = 0 \/ u = 1) as [->|[->| ->]] by lia; assert (v = -1 \/ v = 0 \/ v = 1) as [->|[->| ->]] by lia; cbn; lra.
Qed.
(** The star is at (1, 0); with that as the guess the result is (0, 0). *)
Lemma two_spots_result lstsq : is_lstsq_oracle lstsq -> calc_star_location_from_spots lstsq two_spots 1 0 (spots_file "spotSepPix") = Ok (0, 0)%R.
Proof.
  intros O. rewrite star_read, (read_ok _ _ _ _ (spots_file_ok _ (or_introl eq_refl))). cbn [s_sep s_radius s_angles s_sub s_steps s_step s_iter spots_tuning].
  change (Z.to_nat 1) with 1%nat.
  destruct (star_step lstsq (fun x y => roi_cost two_spots (1 / 2) 1 [0%R] 2 (1 + x) (0 + y)) (fun x y => pairs_val two_spots (1 / 2) 1 2 (1 + x) (0 + y) [0%R]) 3 1) with (k := 0%nat) (x := 0%R) (y := 0%R)
    as (vx & vy & mat & [Lx Hx] & [Ly Hy] & (Hr & Hc & Hm) & ->).
  { intros x y. apply roi_cost_ok; cbn; lia || lra. }
  { lia. }
  rewrite (opt2_exact lstsq O _ _ _ _ (-2) 0 (-2) 0 0 4).
  - assert (T : (/ 10 ^ 15 <= 1)%R) by (rewrite <- Rinv_1; apply Rinv_le_contravar; [lra|apply pow_R1_Rle; lra]).
    destruct (Rlt_dec _ _) as [L|_]; [exfalso; rewrite Rabs_left in L; lra|].
    destruct (Rlt_dec _ _) as [L|_]; [exfalso; rewrite Rabs_left in L; lra|].
    cbn [bind fst snd star_loop]. apply f_equal. f_equal; field.
  - unfold same_shape. cbn [afull nr nc]. rewrite Hr, Hc. reflexivity.
  - congruence.
  - congruence.
  - apply ones_bool.
  - apply (grid_unisolvent 3 1 0 0); auto; lia || lra.
  - intros i j [Hi Hj] _. cbn in Hi, Hj. rewrite Hm, Hx, Hy by auto.
    assert (E : forall k, trial 3 1 0 k = IZR (k - 1)) by (intros; unfold trial; rewrite minus_IZR; field). rewrite !E.
    rewrite Rplus_0_l. rewrite two_spots_flux by lia. unfold quad2. ring.
Qed.
Lemma guess_lost : exists img hx hy tv t, describes_spots "spotSepPix" tv t /\ point_symmetric img hx hy /\
  forall lstsq, is_lstsq_oracle lstsq ->
  exists x y, calc_star_location_from_spots lstsq img (IZR hx / 2) (IZR hy / 2) tv = Ok (x, y) /\ (x <> IZR hx / 2 \/ y <> IZR hy / 2)%R.
Proof.
  exists two_spots, 2, 0, (spots_file "spotSepPix"), spots_tuning.
  split; [apply spots_file_ok; auto|]. split; [apply two_spots_symmetric|]. intros lstsq O.
  exists 0%R, 0%R. replace (2 / 2)%R with 1%R by field. replace (0 / 2)%R with 0%R by field. split; [apply two_spots_result, O|left; lra].
Qed.
(** The separation of the two spots. *)
Lemma two_spots_sep_flux u G : -1 <= u <= 1 -> pairs_flux two_spots (1 / 2) 1 (2 + IZR u) 1 0 [0%R] G -> G = (4 - 2 * IZR u ^ 2)%R.
Proof.
  intros Hu H. apply pairs_det in H; [|lia]. rewrite H. clear H. cbn [pairs_val]. replace (deg 0) with 0%R by (unfold deg; field). rewrite cos_0, sin_0.
  replace (1 + (2 + IZR u) * 1)%R with (IZR (3 + u)) by (rewrite plus_IZR; ring). replace (1 - (2 + IZR u) * 1)%R with (IZR (- 1 - u)) by (rewrite minus_IZR; ring).
  replace (0 + (2 + IZR u) * 0)%R with (IZR 0) by ring. replace (0 - (2 + IZR u) * 0)%R with (IZR 0) by ring.
  rewrite !two_spots_val by lia. unfold bump.
  assert (u = -1 \/ u = 0 \/ u = 1) as [->|[->| ->]] by lia; cbn; lra.
Qed.
Lemma two_spots_sep lstsq : is_lstsq_oracle lstsq -> calc_spot_separation lstsq two_spots 1 0 (spots_file "spotSepGuessPix") = Ok 2%R.
Proof.
  intros O. rewrite (sep_exact lstsq _ _ _ _ spots_tuning (-2) 8 (-4) O).
  - f_equal. field.
  - apply spots_file_ok. auto.
  - cbn. lia.
  - cbn. lia.
  - cbn. lia.
  - cbn [s_sep s_radius s_angles s_sub s_steps s_step s_iter spots_tuning]. intros G s0 HG E i Hi. cbn in E. subst s0.
    assert (T : trial 3 1 2 i = (2 + IZR (i - 1))%R) by (unfold trial; rewrite minus_IZR; field). cbv zeta. rewrite T.
    specialize (HG (2 + IZR (i - 1))%R). apply two_spots_sep_flux in HG; [|lia]. rewrite HG. ring.
  - rewrite Rabs_left by lra. assert (/ 2 ^ 52 <= / 1)%R by (apply Rinv_le_contravar; [lra|apply pow_R1_Rle; lra]). lra.
Qed.
(** The hypotheses of the exact case, met by the two spots. *)
Lemma two_spots_exact i j : 0 <= i < 3 -> 0 <= j < 3 ->
  let x := trial 3 1 1 j in let y := trial 3 1 0 i in
  pairs_flux two_spots (1 / 2) 1 2 x y [0%R] (quad2 (-2) 0 (-2) 4 0 2 x y).
Proof.
  intros Hi Hj x y. 
  assert (Tx : x = (1 + IZR (j - 1))%R) by (unfold x, trial; rewrite minus_IZR; field).
  assert (Ty : y = IZR (i - 1)) by (unfold y, trial; rewrite minus_IZR; field).
  replace (quad2 (-2) 0 (-2) 4 0 2 x y) with (pairs_val two_spots (1 / 2) 1 2 x y [0%R]); [apply pairs_val_ok; lia|].
  rewrite Tx, Ty, two_spots_flux by lia. unfold quad2. ring.
Qed.
