(** Reference resampling routines and concrete cases for maskgen. *)
From Coq Require Import ZArith Bool List String Reals Lia Lra.
From Flocq Require Import Core.
From Coquelicot Require Import Complex.
From Verif.Base Require Import Py Arr Vec Sums CSum Fft.
From Verif.Model Require Import Math PadCrop Fits ThinFilm MaskGen.
From Verif.Spec Require Import MaskGenSpec HlcSpec.
From Verif.Proofs Require Import PadCropP MathP MaskGenP MaskGenQ MaskGenR.
Import ListNotations.
Open Scope list_scope.
Open Scope Z_scope.
Ltac Zify.zify_post_hook ::= Z.div_mod_to_equations.

(** Smallest index whose knot is not below [y], searched over [fuel] knots starting at [i]. *)
Fixpoint seek (v : vec R) (y : R) (i : Z) (fuel : nat) : Z :=
  match fuel with
  | O => i
  | Datatypes.S f => if Rle_dec y (vat v i) then i else seek v y (i + 1) f
  end.
Definition idx (v : vec R) (y : R) : Z := seek v y 0 (Z.to_nat (vlen v - 1)).
Definition spline_ref : bispline_fun := fun ys xs a y x => at2 a (idx ys y) (idx xs x).
Definition rotate_ref : rotate_fun := fun a _ => a.

Lemma seek_range v y i f : 0 <= i -> i <= seek v y i f <= i + Z.of_nat f.
Proof. revert i. induction f as [|f IH]; intros i Hi; cbn [seek]; [lia|]. destruct Rle_dec; [lia|]. specialize (IH (i + 1)). lia. Qed.
Lemma idx_range v y : 1 <= vlen v -> 0 <= idx v y < vlen v.
Proof. intros H. unfold idx. pose proof (seek_range v y 0 (Z.to_nat (vlen v - 1))). lia. Qed.
Lemma seek_knot v k i f : increasing v -> 0 <= i <= k -> k <= i + Z.of_nat f -> k < vlen v -> seek v (vat v k) i f = k.
Proof.
  intros I. revert i. induction f as [|f IH]; intros i H1 H2 H3; cbn [seek]; [lia|].
  destruct Rle_dec as [L|L].
  - destruct (Z.eq_dec i k); auto. assert (vat v i < vat v k)%R by (apply I; lia). lra.
  - apply IH; try lia. destruct (Z.eq_dec i k) as [-> |]; [exfalso; apply L; lra|lia].
Qed.
Lemma idx_knot v k : increasing v -> 0 <= k < vlen v -> idx v (vat v k) = k.
Proof. intros I H. unfold idx. apply seek_knot; auto; lia. Qed.
Lemma seek_high v y i f : (forall j, i <= j < i + Z.of_nat f -> (vat v j < y)%R) -> seek v y i f = i + Z.of_nat f.
Proof.
  revert i. induction f as [|f IH]; intros i H; cbn [seek]; [lia|].
  destruct Rle_dec as [L|]; [specialize (H i ltac:(lia)); lra|]. rewrite IH; [lia|]. intros; apply H; lia.
Qed.
Lemma idx_clamp v y : increasing v -> 1 <= vlen v -> idx v y = idx v (clamp v y).
Proof.
  intros I L. unfold clamp, Rmax, Rmin.
  destruct (Rle_dec y (vat v (vlen v - 1))) as [A|A].
  - destruct (Rle_dec (vat v 0) y) as [B|B]; auto.
    rewrite idx_knot by (auto; lia). unfold idx. destruct (Z.to_nat (vlen v - 1)); auto. cbn [seek]. destruct Rle_dec; [auto|lra].
  - assert (M : (vat v 0 <= vat v (vlen v - 1))%R).
    { destruct (Z.eq_dec (vlen v) 1) as [-> |]; [right; auto|]. left. apply I; lia. }
    destruct (Rle_dec (vat v 0) (vat v (vlen v - 1))) as [_|B]; [|lra]. rewrite idx_knot by (auto; lia).
    unfold idx. rewrite seek_high; [lia|]. intros j Hj. apply Rle_lt_trans with (vat v (vlen v - 1)); [|lra].
    destruct (Z.eq_dec j (vlen v - 1)) as [-> |]; [right; auto|]. left. apply I; lia.
Qed.
Lemma spline_ref_good : good_spline spline_ref.
Proof.
  intros ys xs a I1 I2 L1 L2 A1 A2. unfold spline_ref. split.
  - intros i j [Hi Hj]. rewrite !idx_knot by (auto; lia). auto.
  - intros y x. rewrite (idx_clamp ys y), (idx_clamp xs x) by (auto; lia). auto.
Qed.
Lemma spline_ref_zero : keeps_zero_spline spline_ref.
Proof.
  intros ys xs a y x L1 L2 A1 A2 H. unfold spline_ref. apply H. unfold in_arr. rewrite A1, A2.
  split; apply idx_range; lia.
Qed.
Lemma rotate_ref_zero : keeps_zero_rotate rotate_ref.
Proof. intros a d. unfold rotate_ref. auto. Qed.

(** ** Flux *)
Lemma padded_sum (a : arr R) h : wf a -> nr a <= 2 * h + 1 -> nc a <= 2 * h + 1 ->
  centred_sum h (off_centre a) = rsum2 (at2 a) (nr a) (nc a).
Proof.
  intros [W1 W2] H1 H2. unfold centred_sum, rsum2, off_centre.
  rewrite <- (rsum_window (fun i => rsum (fun j => at2 a i j) (nc a)) (2 * h + 1) (h - nr a / 2) (nr a)) by lia.
  apply rsum_ext. intros i Hi. destruct ((h - nr a / 2 <=? i) && (i <? h - nr a / 2 + nr a)) eqn:E.
  - rewrite <- (rsum_window (fun j => at2 a (i - (h - nr a / 2)) j) (2 * h + 1) (h - nc a / 2) (nc a)) by lia.
    apply rsum_ext. intros j Hj. apply andb_true_iff in E. rewrite Z.leb_le, Z.ltb_lt in E.
    replace (nr a / 2 + (i - h)) with (i - (h - nr a / 2)) by ring. replace (nc a / 2 + (j - h)) with (j - (h - nc a / 2)) by ring.
    unfold in_arrb. destruct (Z.leb_spec 0 (i - (h - nr a / 2))), (Z.ltb_spec (i - (h - nr a / 2)) (nr a)); try lia.
    destruct (Z.leb_spec 0 (j - (h - nc a / 2))), (Z.leb_spec (h - nc a / 2) j); try lia; cbn [andb]; auto.
    destruct (Z.ltb_spec (j - (h - nc a / 2)) (nc a)), (Z.ltb_spec j (h - nc a / 2 + nc a)); try lia; auto.
  - rewrite (rsum_ext _ (fun _ => 0%R)).
    + rewrite rsum_const by lia. ring.
    + intros j Hj. destruct (in_arrb a _ _) eqn:Q; auto. apply in_arrb_spec in Q. destruct Q as [Q1 Q2].
      apply andb_false_iff in E. rewrite Z.leb_gt, Z.ltb_ge in E. lia.
Qed.
Lemma flipped_sum (a : arr R) (flip : bool) h : wf a -> nr a <= 2 * h + 1 -> nc a <= 2 * h + 1 ->
  centred_sum h (flipped a flip) = rsum2 (at2 a) (nr a) (nc a).
Proof.
  intros W H1 H2. rewrite <- (padded_sum a h) by auto. destruct flip; auto. unfold centred_sum, rsum2, flipped.
  apply rsum_ext. intros i Hi. rewrite <- rsum_rev. apply rsum_ext. intros j Hj. f_equal. ring.
Qed.

Lemma value_lem rotate spline (a : arr R) rotDeg mag xo yo padFac (flip : bool) h H : wf a -> (0 < mag <= 1)%R -> (1 <= padFac)%R ->
  least_odd_above (padFac * IZR (Z.max (nr a) (nc a))) (2 * h + 1) ->
  least_odd_above (IZR (2 * h + 1) * mag + 2 + 2 * Rmax (Rabs xo) (Rabs yo)) (2 * H + 1) -> 4 <= 2 * h + 1 ->
  exists out A g, rotate_shift_downsample rotate spline a rotDeg mag xo yo padFac flip = Ok out /\
  nr A = 2 * h + 1 /\ nc A = 2 * h + 1 /\
  (forall i j, in_arr A i j -> at2 A i j = smoothed h (/ (2 * mag)) (flipped a flip) (i - h) (j - h)) /\
  rsum2 (at2 A) (nr A) (nc A) = rsum2 (at2 a) (nr a) (nc a) /\ whole_grid h g /\
  nr out = 2 * (H + 1) /\ nc out = 2 * (H + 1) /\
  (forall i, 0 <= i < 2 * (H + 1) -> at2 out i 0 = 0%R /\ at2 out 0 i = 0%R) /\
  forall dy dx, - H <= dy <= H -> - H <= dx <= H ->
    at2 out (H + 1 + dy) (H + 1 + dx) =
    spline g g (if Req_EM_T rotDeg 0 then A else rotate A (- rotDeg)%R) ((IZR dy - yo) / mag)%R ((IZR dx - xo) / mag)%R.
Proof.
  intros W M P Hh HH Hs. destruct (down_ok rotate spline a rotDeg mag xo yo padFac flip W M P h H Hh HH Hs) as (out & A & EA & E & R1 & C1 & Z0 & V).
  destruct (shape_le a padFac h P W Hh) as [L1 L2].
  destruct EA as (A1 & A2 & AV). cbn [nr nc smooth] in A1, A2.
  assert (AV' : forall i j, in_arr A i j -> at2 A i j = smoothed h (/ (2 * mag)) (flipped a flip) (i - h) (j - h)) by (intros; rewrite AV; auto).
  exists out, A, (unit_grid h). split; [exact E|]. split; [exact A1|]. split; [exact A2|]. split; [exact AV'|]. split.
  { rewrite A1, A2. rewrite (rsum2_ext _ (fun i j => smoothed h (/ (2 * mag)) (flipped a flip) (i - h) (j - h))).
    - fold (centred_sum h (smoothed h (/ (2 * mag)) (flipped a flip))). rewrite smoothed_sum; [|lia|apply Rlt_le, Rinv_0_lt_compat; lra].
      apply flipped_sum; auto.
    - intros i j Hi Hj. apply AV'. split; lia. }
  split. { destruct (grid_increasing h ltac:(lia)) as (_ & L & G). split; auto. }
  split; [exact R1|]. split; [exact C1|]. split; [exact Z0|]. exact V.
Qed.

(** ** A uniform 5 x 5 mask that fills its array *)
Definition ones5 : arr R := afull 5 5 1%R.
Lemma ones5_odd : least_odd_above (1 * IZR (Z.max (nr ones5) (nc ones5))) (2 * 2 + 1).
Proof. cbn. split; [exists 2; auto|]. split; [lra|]. intros m _ H. apply le_IZR. lra. Qed.
Lemma ones5_out : least_odd_above (IZR (2 * 2 + 1) + 2 + 2 * IZR (Z.max (Z.abs 0) (Z.abs 0))) (2 * 3 + 1).
Proof. cbn. split; [exists 3; auto|]. split; [lra|]. intros m _ H. apply le_IZR. lra. Qed.
Lemma edge_lem rotate spline : good_spline spline ->
  exists out, rotate_shift_downsample rotate spline ones5 0 1 0 0 1 false = Ok out /\ nr out = 8 /\ nc out = 8 /\
    off_centre ones5 3 0 = 0%R /\ off_centre out 3 0 = 1%R.
Proof.
  intros G.
  assert (HH : least_odd_above (IZR (2 * 2 + 1) * / IZR 1 + 2 + 2 * Rmax (Rabs (IZR 0)) (Rabs (IZR 0))) (2 * 3 + 1)).
  { rewrite Rinv_1, Rabs_R0. replace (Rmax 0 0) with 0%R by (unfold Rmax; destruct Rle_dec; auto). exact ones5_out || idtac.
    split; [exists 3; auto|]. cbn. split; [lra|]. intros m _ H. apply le_IZR. lra. }
  destruct (whole_ok rotate spline ones5 1 false 1 0 0 2 3) as (out & E & R1 & C1 & V); auto; try lia; try lra.
  { split; cbn; lia. } { exact ones5_odd. }
  rewrite Rinv_1 in E. exists out. split; [exact E|]. split; [exact R1|]. split; [exact C1|]. split; [reflexivity|].
  unfold off_centre. assert (B : in_arrb out (nr out / 2 + 3) (nc out / 2 + 0) = true) by (apply in_arrb_spec; unfold in_arr; rewrite R1, C1; lia).
  rewrite B, R1, C1. change (2 * (3 + 1) / 2) with (3 + 1). rewrite V by lia.
  change (clampZ 2 ((3 - 0) * 1)) with 2. change (clampZ 2 ((0 - 0) * 1)) with 0. rewrite smoothed_point by (lia || lra). reflexivity.
Qed.

(** ** A small occulter description *)
Definition bare5 (h : R) : hlc := {| h_ppl := 1; h_rotDeg := 0; h_aoi := 0; h_rOccLamD := 1; h_lam0 := 1 / 2000000; h_hTi := 1 / 1000000000;
  h_hNi := 1 / 1000000000; h_dx := 1 / 2000000; h_FN := 10; h_polState := 2; h_hRefCoef := 4; h_padFac := 1; h_minOversize := 2;
  h_pmgi := Arr 5 5 (fun i j => if (i =? 2) && (j =? 2) then h else 0%R) |}.
Lemma bare5_ok h : hlc_checks (bare5 h) (1 / 2000000) 8 7.
Proof. unfold hlc_checks. cbn. repeat split; try lra; try lia. Qed.
Lemma bare5_odd h : least_odd_above (IZR (Z.max (nr (h_pmgi (bare5 h))) (nc (h_pmgi (bare5 h))))) 5.
Proof. cbn. split; [exists 2; auto|]. split; [lra|]. intros m _ H. apply le_IZR. lra. Qed.
Lemma bare5_sizes h : n_end (bare5 h) (1 / 2000000) false = 4 /\ n_mid (bare5 h) (1 / 2000000) false = 40.
Proof.
  assert (E : n_end (bare5 h) (1 / 2000000) false = 4).
  { unfold n_end, ppl_end. cbn [h_rOccLamD h_ppl h_minOversize bare5]. replace (2 * 1 * 1 * 2)%R with (IZR 4) by ring. apply Zceil_IZR. }
  split; auto. unfold n_mid. rewrite E. unfold ppl_start, ppl_end. cbn [h_FN h_lam0 h_dx h_ppl bare5].
  replace (10 * (1 / 2000000) / (1 / 2000000) / 1 * IZR 4)%R with (IZR 40) by field. apply Zfloor_IZR.
Qed.
Lemma bare5_start h : exists s, occ_start shipped (bare5 h) (1 / 2000000) = Ok (Some s).
Proof.
  apply (start_exists (bare5 h) (1 / 2000000) 5 8 7 (bare5_ok h)).
  - split; cbn; lia.
  - lra.
  - apply bare5_odd.
  - unfold off_centre. cbn. lra.
Qed.
