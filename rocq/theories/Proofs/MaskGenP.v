From Coq Require Import ZArith Bool List String Reals Lia Lra.
From Flocq Require Import Core.
From Coquelicot Require Import Complex.
From Verif.Base Require Import Py Arr Vec Sums CSum Fft.
From Verif.Model Require Import Math PadCrop Fits ThinFilm MaskGen.
From Verif.Spec Require Import MaskGenSpec.
From Verif.Proofs Require Import PadCropP MathP PsfFitP.
Import ListNotations.
Open Scope Z_scope.
Ltac Zify.zify_post_hook ::= Z.div_mod_to_equations.

(** ** Convolution by FFT *)
Lemma eq_mod_iff N x y : 0 < N -> 0 <= y < N -> ((x - y) mod N =? 0) = (y =? x mod N).
Proof.
  intros HN Hy. destruct (Z.eqb_spec y (x mod N)) as [->|Ne].
  - apply Z.eqb_eq. rewrite Zminus_mod_idemp_r, Z.sub_diag. apply Z.mod_0_l. lia.
  - apply Z.eqb_neq. intros H. apply Ne. apply Z.mod_divide in H as [d H]; [|lia].
    replace x with (y + d * N) by lia. rewrite Z.mod_add, Z.mod_small; lia.
Qed.
Lemma fft_conv (u v : arr C) k l n : 0 < n -> nr u = n -> nc u = n -> nr v = n -> nc v = n ->
  fft2_at (amap2 Cmult (amap (fun z => z * RtoC (IZR n))%C (Arr n n (ifft2_at u)))
             (amap (fun z => z * RtoC (IZR n))%C (Arr n n (ifft2_at v)))) k l
  = csum2 (fun i j => at2 u i j * at2 v ((k - i) mod n) ((l - j) mod n))%C n n.
Proof.
  intros Hn U1 U2 V1 V2. unfold fft2_at. cbn [nr nc at2 amap2 amap].
  assert (N0 : RtoC (IZR n) <> RtoC 0) by (apply RC_neq0; apply IZR_neq; lia).
  assert (N1 : RtoC (IZR n * IZR n) <> RtoC 0) by (rewrite RtoC_mult; apply Cmult_neq_0; auto).
  rewrite (csum2_ext _ (fun a b => csum2 (fun i j => csum2 (fun i' j' =>
      / RtoC (IZR n * IZR n) * (at2 u i j * at2 v i' j' * (w n ((i + i' - k) * a) * w n ((j + j' - l) * b)))) n n) n n)%C).
  2:{ intros a b Ha Hb. unfold ifft2_at. rewrite U1, U2, V1, V2.
      rewrite (csum2_ext _ (fun i j => at2 u i j * (w n (i * a) * w n (j * b)))%C) by (intros; rewrite ifft2_kernel; auto).
      rewrite (csum2_ext (fun i j => at2 v i j * _)%C (fun i j => at2 v i j * (w n (i * a) * w n (j * b)))%C)
        by (intros; rewrite ifft2_kernel; auto).
      rewrite fft2_kernel.
      match goal with |- ((?x / _ * _) * (?y / _ * _) * _)%C = _ => set (X := x); set (Y := y) end.
      transitivity (X * Y * (/ RtoC (IZR n * IZR n) * (w n (- (a * k)) * w n (- (b * l)))))%C.
      { rewrite RtoC_mult. field. auto. }
      unfold X, Y. rewrite csum_prod4, <- csum2_scal_r. apply csum2_ext. intros i j _ _. rewrite <- csum2_scal_r.
      apply csum2_ext. intros i' j' _ _.
      replace ((i + i' - k) * a) with (i * a + i' * a + - (a * k)) by ring.
      replace ((j + j' - l) * b) with (j * b + j' * b + - (b * l)) by ring.
      rewrite !w_add. ring. }
  rewrite csum2_swap4.
  apply csum2_ext. intros i j Hi Hj. rewrite csum2_swap4.
  rewrite <- (csum2_delta (fun i' j' => at2 u i j * at2 v i' j')%C n n ((k - i) mod n) ((l - j) mod n));
    try (apply Z.mod_pos_bound; lia).
  apply csum2_ext. intros i' j' Hi' Hj'. rewrite csum2_scal, csum2_scal.
  unfold csum2. rewrite <- csum_prod. rewrite !w_sum by auto.
  replace (i + i' - k) with (- ((k - i) - i')) by ring. replace (j + j' - l) with (- ((l - j) - j')) by ring.
  assert (Q : forall x, ((- x) mod n =? 0) = (x mod n =? 0)).
  { intros x. destruct (Z.eqb_spec (x mod n) 0) as [E|E].
    - apply Z.eqb_eq. rewrite Z.mod_opp_l_z; lia.
    - apply Z.eqb_neq. intros E'. apply E. rewrite <- (Z.opp_involutive x). rewrite Z.mod_opp_l_z; lia. }
  rewrite !Q, !eq_mod_iff by auto.
  destruct (i' =? (k - i) mod n), (j' =? (l - j) mod n); cbn [andb]; rewrite RtoC_mult; field; auto.
Qed.
Lemma csum2_shift (f : Z -> Z -> C) n a b : 0 < n ->
  csum2 (fun i j => f ((i - a) mod n) ((j - b) mod n)) n n = csum2 f n n.
Proof. intros. rewrite <- (csum2_roll f n n (- a) (- b)) by auto. reflexivity. Qed.

Lemma mod_add_sub x a b n : 0 < n -> (x - (a - b) mod n) mod n = (x - a + b) mod n.
Proof. intros. rewrite Zminus_mod_idemp_r. f_equal. ring. Qed.
Lemma convolve_ok (W M : arr R) n : 0 < n -> nr W = n -> nc W = n -> nr M = n -> nc M = n ->
  exists A, convolve n W M = Ok A /\ nr A = n /\ nc A = n /\
  forall p q, at2 A p q = rsum2 (fun i j => at2 W i j * at2 M ((p - i + n / 2) mod n) ((q - j + n / 2) mod n))%R n n.
Proof.
  intros Hn W1 W2 M1 M2. unfold convolve, ifft2, fft2.
  rewrite !nonempty_true by (cbn; lia). cbn [bind guard].
  rewrite nonempty_true by (cbn; lia). cbn [bind guard]. eexists. split; [reflexivity|].
  cbn [nr nc amap fftshift roll2 amap2 ifftshift]. split; [auto|]. split; [auto|]. intros p q.
  cbn [at2 fftshift roll2 amap ifftshift]. cbn [nr nc]. rewrite ?W1, ?W2, ?M1, ?M2.
  set (u := Arr n n (fun i j => RtoC (at2 W ((i - - (n / 2)) mod n) ((j - - (n / 2)) mod n)))).
  set (v := Arr n n (fun i j => RtoC (at2 M ((i - - (n / 2)) mod n) ((j - - (n / 2)) mod n)))).
  match goal with |- fst ?X = _ => assert (E : X = csum2 (fun i j => at2 u i j * at2 v (((p - n / 2) mod n - i) mod n) (((q - n / 2) mod n - j) mod n))%C n n) end.
  { rewrite <- (fft_conv u v _ _ n) by auto. unfold fft2_at. cbn [nr nc at2 amap2 amap roll2]. rewrite ?W1, ?W2, ?M1, ?M2.
    apply csum2_ext. intros i j Hi Hj. do 2 f_equal.
    - f_equal. unfold ifft2_at. unfold ifftshift, roll2. cbn [nr nc at2 amap]. rewrite ?W1, ?W2. reflexivity.
    - f_equal. unfold ifft2_at. unfold ifftshift, roll2. cbn [nr nc at2 amap]. rewrite ?M1, ?M2. reflexivity. }
  rewrite E. clear E.
  rewrite <- (csum2_shift _ n (n / 2) (n / 2)) by auto. rewrite csum2_fst. unfold rsum2.
  apply rsum_ext. intros i Hi. apply rsum_ext. intros j Hj. unfold u, v. cbn [at2].
  assert (Q1 : forall x, 0 <= x < n -> ((x - n / 2) mod n - - (n / 2)) mod n = x).
  { intros x Hx. rewrite Zminus_mod_idemp_l. replace (x - n / 2 - - (n / 2)) with x by ring. apply Z.mod_small; auto. }
  rewrite !Q1 by auto.
  assert (Q2 : forall x y, ((((x - n / 2) mod n - (y - n / 2) mod n) mod n) - - (n / 2)) mod n = (x - y + n / 2) mod n).
  { intros x y. rewrite <- Zminus_mod, Zminus_mod_idemp_l. f_equal. ring. }
  rewrite !Q2. cbn. ring.
Qed.

(** ** Sizes and grids *)
Lemma least_odd x : least_odd_above x (ceil_odd x).
Proof. destruct (ceil_odd_ok x) as (O & B & M). split; [exact O|]. split; [apply B|exact M]. Qed.
Lemma arange_ok n : 0 < n -> let g := arange1 (- (IZR n - 1) / 2) (IZR n / 2) in
  vlen g = n /\ (forall i, vat g i = - (IZR n - 1) / 2 + IZR i)%R /\ increasing g.
Proof.
  intros Hn g. unfold g, arange1. cbn [vlen vat]. split.
  - rewrite (Zceil_unique _ n); [lia|]. lra.
  - split; [auto|]. intros i j Hij Hj. cbn [vat]. apply Rplus_lt_compat_l. apply IZR_lt. lia.
Qed.
Lemma odd_half n : Z.Odd n -> 0 < n -> exists h, n = 2 * h + 1 /\ 0 <= h /\ n / 2 = h.
Proof. intros [h ->] H. exists h. lia. Qed.
Lemma half_IZR h : (- (IZR (2 * h + 1) - 1) / 2 = - IZR h)%R.
Proof. rewrite plus_IZR, mult_IZR. lra. Qed.

(** ** The window *)
Lemma sqrt_le_sq (k : Z) (r : R) : 0 <= k -> (0 <= r)%R -> (sqrt (IZR k) <= r)%R <-> (IZR k <= r * r)%R.
Proof.
  intros Hk Hr. assert (K : (0 <= IZR k)%R) by (apply IZR_le; auto). split; intros H.
  - rewrite <- (sqrt_sqrt (IZR k)) by auto. pose proof (sqrt_pos (IZR k)). apply Rmult_le_compat; auto.
  - rewrite <- (sqrt_square r) by auto. apply sqrt_le_1_alt. auto.
Qed.
Lemma rsum2_div f c n m : rsum2 (fun i j => f i j / c)%R n m = (rsum2 f n m / c)%R.
Proof.
  unfold Rdiv. rewrite Rmult_comm, <- rsum2_scal. unfold rsum2. apply rsum_ext. intros. apply rsum_ext. intros. ring.
Qed.
Lemma window_ok h r : 0 <= h -> (0 <= r)%R ->
  let x0 := arange1 (- (IZR (2 * h + 1) - 1) / 2) (IZR (2 * h + 1) / 2) in
  forall i j, at2 (window x0 (2 * r)) i j =
    ((if Rle_dec (IZR ((i - h) * (i - h) + (j - h) * (j - h))) (r * r) then 1 else 0) / disc_sum h r (fun _ _ => 1))%R.
Proof.
  intros Hh Hr x0. destruct (arange_ok (2 * h + 1) ltac:(lia)) as (L & V & _). fold x0 in L, V.
  assert (Q : forall i j, (if Rle_dec (sqrt (vat x0 j ^ 2 + vat x0 i ^ 2)) (2 * r / 2) then 1 else 0)%R
    = (if Rle_dec (IZR ((i - h) * (i - h) + (j - h) * (j - h))) (r * r) then 1 else 0)%R).
  { intros i j. rewrite !V, half_IZR. replace (2 * r / 2)%R with r by lra.
    replace ((- IZR h + IZR j) ^ 2 + (- IZR h + IZR i) ^ 2)%R with (IZR ((i - h) * (i - h) + (j - h) * (j - h)))
      by (rewrite plus_IZR, !mult_IZR, !minus_IZR; ring).
    pose proof (sqrt_le_sq ((i - h) * (i - h) + (j - h) * (j - h)) r (Z.add_nonneg_nonneg _ _ (Z.square_nonneg _) (Z.square_nonneg _)) Hr) as S.
    destruct (Rle_dec (sqrt _) r), (Rle_dec _ (r * r)); tauto. }
  intros i j. unfold window. cbn [at2 amap nr nc]. rewrite Q, L. f_equal.
  unfold disc_sum, rsum2. apply rsum_ext. intros a _. apply rsum_ext. intros b _. rewrite Q. auto.
Qed.
Lemma disc_count_pos h r : 0 <= h -> (0 <= r)%R -> (0 < disc_sum h r (fun _ _ => 1))%R.
Proof.
  intros Hh Hr. unfold disc_sum.
  apply Rlt_le_trans with (if Rle_dec (IZR ((h - h) * (h - h) + (h - h) * (h - h))) (r * r) then 1 else 0)%R.
  - rewrite Z.sub_diag. cbn [Z.mul Z.add]. destruct (Rle_dec 0 (r * r)); [lra|]. exfalso. apply n. nra.
  - apply (rsum2_term_le (fun a b => if Rle_dec (IZR ((a - h) * (a - h) + (b - h) * (b - h))) (r * r) then 1 else 0)%R); try lia.
    intros i j _ _. destruct Rle_dec; lra.
Qed.

(** ** The main computation *)
(** The padded and possibly flipped mask, in centred coordinates. *)
Lemma padded_ok (a : arr R) h (flip : bool) : wf a -> 0 <= h -> exists m, pad_crop a [2 * h + 1; 2 * h + 1] 0%R = Ok m /\
  let m' := if flip then Arr (nr m) (nc m) (fun i j => at2 m i (nc m - 1 - j)) else m in
  nr m' = 2 * h + 1 /\ nc m' = 2 * h + 1 /\
  forall i j, 0 <= i < 2 * h + 1 -> 0 <= j < 2 * h + 1 -> at2 m' i j = flipped a flip (i - h) (j - h).
Proof.
  intros W Hh. destruct (pad_crop_ok a (2 * h + 1) (2 * h + 1) 0%R W ltac:(lia) ltac:(lia)) as (m & E & R1 & C1 & V).
  exists m. split; [exact E|]. replace ((2 * h + 1) / 2) with h in V by lia.
  destruct flip; cbn [nr nc at2]; rewrite ?R1, ?C1; split; auto; split; auto; intros i j Hi Hj; rewrite V by lia;
    unfold flipped, off_centre.
  - replace (nr a / 2 + (i - h)) with (i - h + nr a / 2) by ring.
    replace (nc a / 2 + - (j - h)) with (2 * h + 1 - 1 - j - h + nc a / 2) by ring. auto.
  - replace (nr a / 2 + (i - h)) with (i - h + nr a / 2) by ring.
    replace (nc a / 2 + (j - h)) with (j - h + nc a / 2) by ring. auto.
Qed.

Section Down.
Variable rotate : rotate_fun.
Variable spline : bispline_fun.
Variable a : arr R.
Variables rotDeg mag xo yo padFac : R.
Variable flip : bool.
Hypothesis W : wf a.

Lemma down_rejects e : ~ (0 < mag <= 1)%R \/ (padFac < 1)%R ->
  rotate_shift_downsample rotate spline a rotDeg mag xo yo padFac flip = Err e -> e = TypeError.
Proof.
  intros H. unfold rotate_shift_downsample, guard, Rltb.
  destruct (Rlt_dec 0 mag); [|cbn; congruence]. destruct (Rlt_dec 1 mag); [cbn; congruence|].
  destruct (Rlt_dec 0 padFac); [|cbn; congruence]. destruct (Rlt_dec padFac 1); [cbn; congruence|].
  exfalso. destruct H as [H|H]; [apply H|]; lra.
Qed.
Lemma down_rejects' : ~ (0 < mag <= 1)%R \/ (padFac < 1)%R ->
  rotate_shift_downsample rotate spline a rotDeg mag xo yo padFac flip = Err TypeError.
Proof.
  intros H. unfold rotate_shift_downsample, guard, Rltb.
  destruct (Rlt_dec 0 mag); [|reflexivity]. destruct (Rlt_dec 1 mag); [reflexivity|].
  destruct (Rlt_dec 0 padFac); [|reflexivity]. destruct (Rlt_dec padFac 1); [reflexivity|].
  exfalso. destruct H as [H|H]; [apply H|]; lra.
Qed.

Hypothesis Hmag : (0 < mag <= 1)%R.
Hypothesis Hpad : (1 <= padFac)%R.
Variables h H : Z.
Hypothesis Hh : least_odd_above (padFac * IZR (Z.max (nr a) (nc a))) (2 * h + 1).
Hypothesis HH : least_odd_above (IZR (2 * h + 1) * mag + 2 + 2 * Rmax (Rabs xo) (Rabs yo)) (2 * H + 1).
Lemma least_unique x n m : least_odd_above x n -> least_odd_above x m -> n = m.
Proof. intros (O1 & B1 & M1) (O2 & B2 & M2). apply Z.le_antisymm; auto. Qed.
Lemma h_nonneg : 0 <= h.
Proof.
  destruct Hh as (_ & B & _). destruct W.
  assert (0 <= padFac * IZR (Z.max (nr a) (nc a)))%R by (apply Rmult_le_pos; [lra|apply IZR_le; lia]).
  assert (0 <= 2 * h + 1) by (apply le_IZR; lra). lia.
Qed.
Lemma H_nonneg : 0 <= H.
Proof.
  destruct HH as (_ & B & _). pose proof h_nonneg.
  assert (0 <= IZR (2 * h + 1) * mag)%R by (apply Rmult_le_pos; [apply IZR_le; lia|lra]).
  pose proof (Rmax_l (Rabs xo) (Rabs yo)). pose proof (Rabs_pos xo).
  assert (2 <= 2 * H + 1) by (apply le_IZR; lra). lia.
Qed.
Definition smooth : arr R := Arr (2 * h + 1) (2 * h + 1) (fun i j => smoothed h (/ (2 * mag)) (flipped a flip) (i - h) (j - h)).
Definition turned : arr R -> arr R := fun b => if Req_EM_T rotDeg 0 then b else rotate b (- rotDeg)%R.
Definition unit_grid (k : Z) : vec R := arange1 (- (IZR (2 * k + 1) - 1) / 2) (IZR (2 * k + 1) / 2).

Lemma down_err : 2 * h + 1 < 4 -> rotate_shift_downsample rotate spline a rotDeg mag xo yo padFac flip = Err spline_error.
Proof.
  intros Hs. pose proof h_nonneg as H0.
  unfold rotate_shift_downsample, guard, Rltb.
  destruct (Rlt_dec 0 mag); [|lra]. destruct (Rlt_dec 1 mag); [lra|].
  destruct (Rlt_dec 0 padFac); [|lra]. destruct (Rlt_dec padFac 1); [lra|]. cbn [negb bind].
  rewrite (least_unique _ _ _ (least_odd _) Hh).
  destruct (padded_ok a h flip W H0) as (m & E & R1 & C1 & V). rewrite E. cbn [bind].
  set (m' := if flip then _ else m) in *. cbv zeta. rewrite R1.
  destruct (arange_ok (2 * h + 1) ltac:(lia)) as (L & _ & _).
  destruct (convolve_ok (window (arange1 (- (IZR (2 * h + 1) - 1) / 2) (IZR (2 * h + 1) / 2)) (1 / mag)) m' (2 * h + 1))
    as (A & EA & _); try lia; try (cbn [nr nc window amap]; exact L).
  rewrite EA. cbn [bind]. rewrite L. destruct (Z.ltb_spec 3 (2 * h + 1)); [lia|]. reflexivity.
Qed.

Lemma down_ok : 4 <= 2 * h + 1 -> exists out A, aeq A smooth /\
  rotate_shift_downsample rotate spline a rotDeg mag xo yo padFac flip = Ok out /\
  nr out = 2 * (H + 1) /\ nc out = 2 * (H + 1) /\
  (forall i, 0 <= i < 2 * (H + 1) -> at2 out i 0 = 0%R /\ at2 out 0 i = 0%R) /\
  forall dy dx, - H <= dy <= H -> - H <= dx <= H ->
    at2 out (H + 1 + dy) (H + 1 + dx) =
    spline (unit_grid h) (unit_grid h) (turned A) ((IZR dy - yo) / mag)%R ((IZR dx - xo) / mag)%R.
Proof.
  intros Hs. pose proof h_nonneg as H0. pose proof H_nonneg as H1.
  unfold rotate_shift_downsample, guard, Rltb.
  destruct (Rlt_dec 0 mag); [|lra]. destruct (Rlt_dec 1 mag); [lra|].
  destruct (Rlt_dec 0 padFac); [|lra]. destruct (Rlt_dec padFac 1); [lra|]. cbn [negb bind].
  rewrite (least_unique _ _ _ (least_odd _) Hh).
  destruct (padded_ok a h flip W H0) as (m & E & R1 & C1 & V). rewrite E. cbn [bind].
  set (m' := if flip then _ else m) in *. cbv zeta. rewrite R1.
  rewrite (least_unique _ _ _ (least_odd _) HH).
  destruct (arange_ok (2 * h + 1) ltac:(lia)) as (L & LV & _).
  destruct (arange_ok (2 * H + 1) ltac:(lia)) as (L' & LV' & _).
  fold (unit_grid h) in *. fold (unit_grid H) in *.
  destruct (convolve_ok (window (unit_grid h) (1 / mag)) m' (2 * h + 1)) as (A & EA & A1 & A2 & AV); try lia;
    try (cbn [nr nc window amap]; exact L).
  rewrite EA. cbn [bind]. rewrite L. destruct (Z.ltb_spec 3 (2 * h + 1)); [|lia]. cbn [bind].
  fold (turned A).
  assert (S : forall k, 0 < k -> slice_len k (Slice 1 k) = k - 1 /\ slice_lo k (Slice 1 k) = 1).
  { intros k Hk. unfold slice_len, slice_lo, slice_bound. cbn [s_start s_stop].
    destruct (Z.ltb_spec 1 0), (Z.ltb_spec k 0); lia. }
  unfold set_slice, afull. cbn [nr nc]. destruct (S (2 * H + 1 + 1)) as [S1 S2]; [lia|]. rewrite S1, S2, L'.
  replace (2 * H + 1 + 1 - 1) with (2 * H + 1) by ring. unfold bc_ok. rewrite Z.eqb_refl. cbn [orb andb].
  eexists. exists A. split.
  - split; [auto|]. split; [auto|]. intros i j [Hi Hj]. rewrite A1 in Hi. rewrite A2 in Hj. rewrite AV. unfold smooth. cbn [at2].
    assert (Hr : (0 <= / (2 * mag))%R) by (left; apply Rinv_0_lt_compat; lra).
    unfold smoothed, disc_mean. replace (1 / mag)%R with (2 * (/ (2 * mag)))%R by (field; lra).
    replace ((2 * h + 1) / 2) with h by lia.
    unfold disc_sum at 1. rewrite <- rsum2_div. unfold rsum2. apply rsum_ext. intros p Hp. apply rsum_ext. intros q Hq.
    unfold unit_grid. rewrite window_ok by auto. unfold wrap.
    rewrite V by (apply Z.mod_pos_bound; lia).
    replace (i - h - (p - h) + h) with (i - p + h) by ring. replace (j - h - (q - h) + h) with (j - q + h) by ring.
    destruct Rle_dec; unfold Rdiv; ring.
  - split; [reflexivity|]. cbn [nr nc at2]. split; [lia|]. split; [lia|]. split.
    + intros i Hi. destruct (Z.leb_spec 1 0); [lia|]. rewrite !andb_false_r. cbn [andb]. split; auto.
    + intros dy dx Hy Hx.
      destruct (Z.leb_spec 1 (H + 1 + dy)), (Z.ltb_spec (H + 1 + dy) (1 + (2 * H + 1))),
        (Z.leb_spec 1 (H + 1 + dx)), (Z.ltb_spec (H + 1 + dx) (1 + (2 * H + 1))); try lia. cbn [andb].
      unfold bc_idx. destruct (Z.eqb_spec (2 * H + 1) 1); [exfalso|].
      { destruct HH as (_ & B & _). assert (0 <= IZR (2 * h + 1) * mag)%R by (apply Rmult_le_pos; [apply IZR_le; lia|lra]).
        pose proof (Rmax_l (Rabs xo) (Rabs yo)). pose proof (Rabs_pos xo). rewrite e in B. lra. }
      rewrite !LV', !half_IZR. rewrite !minus_IZR, !plus_IZR.
      f_equal; field; lra.
Qed.
End Down.

(** ** Disc means *)
Lemma disc_sum_scal h r c f : disc_sum h r (fun k l => c * f k l)%R = (c * disc_sum h r f)%R.
Proof.
  unfold disc_sum. rewrite <- rsum2_scal. apply rsum2_ext. intros. destruct Rle_dec; ring.
Qed.
Lemma disc_sum_le h r f g : (forall k l, - h <= k <= h -> - h <= l <= h -> (f k l <= g k l)%R) ->
  (disc_sum h r f <= disc_sum h r g)%R.
Proof. intros Hf. unfold disc_sum. apply rsum2_le. intros. destruct Rle_dec; [apply Hf; lia|lra]. Qed.
Lemma disc_mean_ext h r f g : (forall k l, - h <= k <= h -> - h <= l <= h -> f k l = g k l) ->
  disc_mean h r f = disc_mean h r g.
Proof.
  intros Hf. unfold disc_mean. f_equal. unfold disc_sum. apply rsum2_ext. intros. destruct Rle_dec; [apply Hf; lia|auto].
Qed.
Lemma disc_mean_bounds h r f lo hi : 0 <= h -> (0 <= r)%R ->
  (forall k l, - h <= k <= h -> - h <= l <= h -> (lo <= f k l <= hi)%R) -> (lo <= disc_mean h r f <= hi)%R.
Proof.
  intros Hh Hr B. unfold disc_mean. pose proof (disc_count_pos h r Hh Hr) as P.
  set (c := disc_sum h r (fun _ _ => 1%R)) in *.
  assert (L : (lo * c <= disc_sum h r f)%R).
  { unfold c. rewrite <- (disc_sum_scal h r lo (fun _ _ => 1%R)). apply disc_sum_le. intros k l Hk Hl. destruct (B k l Hk Hl). lra. }
  assert (U : (disc_sum h r f <= hi * c)%R).
  { unfold c. rewrite <- (disc_sum_scal h r hi (fun _ _ => 1%R)). apply disc_sum_le. intros k l Hk Hl. destruct (B k l Hk Hl). lra. }
  split.
  - apply Rmult_le_reg_r with c; auto. unfold Rdiv. rewrite Rmult_assoc, Rinv_l, Rmult_1_r by lra. auto.
  - apply Rmult_le_reg_r with c; auto. unfold Rdiv. rewrite Rmult_assoc, Rinv_l, Rmult_1_r by lra. auto.
Qed.
Lemma sq_pos k l : k <> 0 \/ l <> 0 -> 1 <= k * k + l * l.
Proof.
  intros [H|H]; [assert (k * k <> 0) by (intros E; apply Z.mul_eq_0 in E; lia)|assert (l * l <> 0) by (intros E; apply Z.mul_eq_0 in E; lia)];
  pose proof (Z.square_nonneg k); pose proof (Z.square_nonneg l); lia.
Qed.
Lemma sq_le k l m : 0 <= m -> k * k + l * l <= m * m -> - m <= k <= m /\ - m <= l <= m.
Proof.
  intros Hm H. pose proof (Z.square_nonneg k). pose proof (Z.square_nonneg l).
  split; apply Z.abs_le; apply Z.square_le_simpl_nonneg; auto; rewrite Z.abs_square; lia.
Qed.
Lemma disc_sum_point h r f : 0 <= h -> (0 <= r < 1)%R -> disc_sum h r f = f 0 0.
Proof.
  intros Hh Hr. unfold disc_sum. transitivity (f (h - h) (h - h)); [|rewrite Z.sub_diag; auto].
  rewrite <- (rsum2_delta (fun a b => f (a - h) (b - h)) (2 * h + 1) (2 * h + 1) h h) by lia.
  apply rsum2_ext. intros i j Hi Hj. destruct (Z.eqb_spec i h) as [->|Ni]; cbn [andb].
  - destruct (Z.eqb_spec j h) as [->|Nj].
    + rewrite Z.sub_diag. cbn [Z.mul Z.add]. destruct Rle_dec as [|C]; auto. exfalso. apply C. nra.
    + destruct Rle_dec as [C|]; auto. exfalso.
      assert (1 <= (h - h) * (h - h) + (j - h) * (j - h)) by (apply sq_pos; lia). apply IZR_le in H. nra.
  - destruct Rle_dec as [C|]; auto. exfalso.
    assert (1 <= (i - h) * (i - h) + (j - h) * (j - h)) by (apply sq_pos; lia). apply IZR_le in H. nra.
Qed.
Lemma disc_mean_point h r f : 0 <= h -> (0 <= r < 1)%R -> disc_mean h r f = f 0 0.
Proof. intros. unfold disc_mean. rewrite !disc_sum_point by auto. field. Qed.
Lemma wrap_id h d : - h <= d <= h -> wrap h d = d.
Proof. intros. unfold wrap. rewrite Z.mod_small by lia. ring. Qed.
Lemma wrap_range h d : 0 <= h -> - h <= wrap h d <= h.
Proof. intros. unfold wrap. pose proof (Z.mod_pos_bound (d + h) (2 * h + 1)). lia. Qed.
Lemma smoothed_point h r f d e : - h <= d <= h -> - h <= e <= h -> (0 <= r < 1)%R -> smoothed h r f d e = f d e.
Proof. intros Hd He Hr. unfold smoothed. rewrite disc_mean_point, !Z.sub_0_r, !wrap_id by (auto; lia). auto. Qed.
Lemma smoothed_bounds h r f lo hi d e : 0 <= h -> (0 <= r)%R ->
  (forall k l, - h <= k <= h -> - h <= l <= h -> (lo <= f k l <= hi)%R) -> (lo <= smoothed h r f d e <= hi)%R.
Proof. intros Hh Hr B. apply disc_mean_bounds; auto. intros. apply B; apply wrap_range; auto. Qed.
(** Where the disc stays inside the array no wrapping takes place. *)
Lemma smoothed_inside h r R0 f d e : 0 <= h -> (0 <= r <= IZR R0)%R -> - h <= d - R0 -> d + R0 <= h -> - h <= e - R0 -> e + R0 <= h ->
  smoothed h r f d e = disc_mean h r (fun k l => f (d - k) (e - l)).
Proof.
  intros Hh Hr D1 D2 E1 E2. unfold smoothed, disc_mean. f_equal. unfold disc_sum. apply rsum2_ext. intros i j Hi Hj.
  destruct Rle_dec as [C|]; auto.
  assert (R0' : 0 <= R0) by (apply le_IZR; lra).
  assert (Q : (i - h) * (i - h) + (j - h) * (j - h) <= R0 * R0).
  { apply le_IZR. rewrite (mult_IZR R0). apply Rle_trans with (1 := C). apply Rmult_le_compat; lra. }
  destruct (sq_le _ _ _ R0' Q).
  rewrite !wrap_id by lia. auto.
Qed.
(** Averaging redistributes the flux without changing its total. *)
Lemma rsum2_swap4 (F : Z -> Z -> Z -> Z -> R) n m n' m' :
  rsum2 (fun i j => rsum2 (fun k l => F i j k l) n' m') n m = rsum2 (fun k l => rsum2 (fun i j => F i j k l) n m) n' m'.
Proof.
  apply RtoC_inj. rewrite <- !csum2_RtoC.
  rewrite (csum2_ext _ (fun i j => csum2 (fun k l => RtoC (F i j k l)) n' m')) by (intros; rewrite csum2_RtoC; auto).
  rewrite (csum2_ext (fun k l => RtoC _) (fun k l => csum2 (fun i j => RtoC (F i j k l)) n m)) by (intros; rewrite csum2_RtoC; auto).
  apply csum2_swap4.
Qed.
Lemma rsum2_roll' (f : Z -> Z -> R) n m a b : 0 < n -> 0 < m ->
  rsum2 (fun i j => f ((i + a) mod n) ((j + b) mod m)) n m = rsum2 f n m.
Proof.
  intros Hn Hm. unfold rsum2. rewrite (rsum_roll (fun i => rsum (fun j => f i ((j + b) mod m)) m) n a) by auto.
  apply rsum_ext. intros i _. apply (rsum_roll (fun j => f i j)); auto.
Qed.
Lemma smoothed_sum h r f : 0 <= h -> (0 <= r)%R -> centred_sum h (smoothed h r f) = centred_sum h f.
Proof.
  intros Hh Hr. unfold centred_sum, smoothed, disc_mean. pose proof (disc_count_pos h r Hh Hr) as P.
  rewrite rsum2_div. unfold disc_sum at 1. rewrite rsum2_swap4.
  rewrite (rsum2_ext _ (fun a b => centred_sum h f * (if Rle_dec (IZR ((a - h) * (a - h) + (b - h) * (b - h))) (r * r) then 1 else 0))%R).
  - rewrite rsum2_scal. fold (disc_sum h r (fun _ _ => 1%R)). unfold centred_sum. field. lra.
  - intros a b Ha Hb. destruct Rle_dec.
    + rewrite Rmult_1_r. unfold centred_sum, wrap.
      rewrite <- (rsum2_roll' (fun i j => f (i - h) (j - h)) (2 * h + 1) (2 * h + 1) (- (a - h)) (- (b - h))) by lia.
      apply rsum2_ext. intros i j _ _. f_equal; f_equal; f_equal; ring.
    + rewrite Rmult_0_r. apply rsum2_all_zero. auto.
Qed.

(** ** Whole-pixel grids *)
Lemma grid_increasing h : 0 <= h -> increasing (unit_grid h) /\ vlen (unit_grid h) = 2 * h + 1 /\
  forall i, vat (unit_grid h) i = IZR (i - h).
Proof.
  intros Hh. destruct (arange_ok (2 * h + 1) ltac:(lia)) as (L & V & I). split; [exact I|]. split; [exact L|].
  intros i. unfold unit_grid. rewrite V, half_IZR, minus_IZR. lra.
Qed.
Lemma clamp_IZR h d : 0 <= h -> clamp (unit_grid h) (IZR d) = IZR (clampZ h d).
Proof.
  intros Hh. destruct (grid_increasing h Hh) as (_ & L & V). unfold clamp. rewrite L, !V.
  replace (0 - h) with (- h) by ring. replace (2 * h + 1 - 1 - h) with h by ring. unfold clampZ.
  unfold Rmax, Rmin. destruct (Rle_dec (IZR d) (IZR h)) as [A|A].
  - apply le_IZR in A. destruct (Rle_dec (IZR (- h)) (IZR d)) as [B|B].
    + apply le_IZR in B. f_equal. lia.
    + apply Rnot_le_lt, lt_IZR in B. f_equal. lia.
  - apply Rnot_le_lt, lt_IZR in A. destruct (Rle_dec (IZR (- h)) (IZR h)) as [B|B].
    + f_equal. lia.
    + apply Rnot_le_lt, lt_IZR in B. lia.
Qed.
Lemma spline_whole spline A h d e : good_spline spline -> 4 <= 2 * h + 1 -> nr A = 2 * h + 1 -> nc A = 2 * h + 1 ->
  spline (unit_grid h) (unit_grid h) A (IZR d) (IZR e) = at2 A (h + clampZ h d) (h + clampZ h e).
Proof.
  intros G Hs N1 N2. destruct (grid_increasing h ltac:(lia)) as (I & L & V).
  destruct (G (unit_grid h) (unit_grid h) A I I) as [G1 G2]; try lia.
  rewrite G2, !clamp_IZR by lia.
  replace (IZR (clampZ h d)) with (vat (unit_grid h) (h + clampZ h d)) by (rewrite V; f_equal; ring).
  replace (IZR (clampZ h e)) with (vat (unit_grid h) (h + clampZ h e)) by (rewrite V; f_equal; ring).
  apply G1. unfold clampZ. split; lia.
Qed.
Lemma off_centre_outside (a : arr R) h d e : nr a <= 2 * h + 1 -> nc a <= 2 * h + 1 -> ~ (- h <= d <= h /\ - h <= e <= h) ->
  off_centre a d e = 0%R.
Proof.
  intros H1 H2 Hd. unfold off_centre. destruct (in_arrb a _ _) eqn:E; auto. apply in_arrb_spec in E. unfold in_arr in E. lia.
Qed.
Lemma least_odd_le x n m : least_odd_above x n -> (IZR m <= x)%R -> m <= n.
Proof. intros (_ & B & _) H. apply le_IZR. lra. Qed.

Section Whole.
Variable rotate : rotate_fun.
Variable spline : bispline_fun.
Variable a : arr R.
Variable padFac : R.
Variable flip : bool.
Variables K X Y h H : Z.
Let mag := (/ IZR K)%R.
Hypothesis W : wf a.
Hypothesis G : good_spline spline.
Hypothesis Hpad : (1 <= padFac)%R.
Hypothesis HK : 1 <= K.
Hypothesis Hh : least_odd_above (padFac * IZR (Z.max (nr a) (nc a))) (2 * h + 1).
Hypothesis HH : least_odd_above (IZR (2 * h + 1) * mag + 2 + 2 * Rmax (Rabs (IZR X)) (Rabs (IZR Y))) (2 * H + 1).
Hypothesis Hs : 4 <= 2 * h + 1.
Lemma mag_ok : (0 < mag <= 1)%R.
Proof.
  unfold mag. assert (1 <= IZR K)%R by (apply IZR_le; auto). split; [apply Rinv_0_lt_compat; lra|].
  rewrite <- Rinv_1. apply Rinv_le_contravar; lra.
Qed.
Lemma whole_ok : exists out, rotate_shift_downsample rotate spline a 0 mag (IZR X) (IZR Y) padFac flip = Ok out /\
  nr out = 2 * (H + 1) /\ nc out = 2 * (H + 1) /\
  forall dy dx, - H <= dy <= H -> - H <= dx <= H -> at2 out (H + 1 + dy) (H + 1 + dx) =
    smoothed h (IZR K / 2) (flipped a flip) (clampZ h ((dy - Y) * K)) (clampZ h ((dx - X) * K)).
Proof.
  pose proof mag_ok as M.
  destruct (down_ok rotate spline a 0 mag (IZR X) (IZR Y) padFac flip W M Hpad h H Hh HH Hs) as (out & A & EA & E & R1 & C1 & _ & V).
  exists out. split; [exact E|]. split; [auto|]. split; [auto|]. intros dy dx Hy Hx. rewrite V by auto.
  unfold turned. destruct (Req_EM_T 0 0) as [_|N]; [|congruence].
  destruct EA as (A1 & A2 & AV). cbn [nr nc smooth] in A1, A2.
  assert (Q : forall d x, ((IZR d - IZR x) / mag = IZR ((d - x) * K))%R).
  { intros. rewrite mult_IZR, minus_IZR. unfold mag. field. apply IZR_neq. lia. }
  rewrite !Q. rewrite (spline_whole spline A h _ _ G Hs A1 A2).
  rewrite AV by (unfold clampZ; split; lia). unfold smooth. cbn [at2].
  replace (/ (2 * mag))%R with (IZR K / 2)%R by (unfold mag; field; apply IZR_neq; lia). f_equal; ring.
Qed.
End Whole.
Lemma shape_le (a : arr R) padFac h : (1 <= padFac)%R -> wf a -> least_odd_above (padFac * IZR (Z.max (nr a) (nc a))) (2 * h + 1) ->
  nr a <= 2 * h + 1 /\ nc a <= 2 * h + 1.
Proof.
  intros Hp [W1 W2] Hh. assert (0 <= IZR (Z.max (nr a) (nc a)))%R by (apply IZR_le; lia).
  pose proof (least_odd_le _ _ (Z.max (nr a) (nc a)) Hh). assert (IZR (Z.max (nr a) (nc a)) <= padFac * IZR (Z.max (nr a) (nc a)))%R by nra.
  lia.
Qed.
(** Unit magnification, whole-pixel shift. *)
Lemma unit_ok rotate spline a padFac (flip : bool) X Y h H : wf a -> good_spline spline -> (1 <= padFac)%R ->
  least_odd_above (padFac * IZR (Z.max (nr a) (nc a))) (2 * h + 1) -> 4 <= 2 * h + 1 ->
  least_odd_above (IZR (2 * h + 1) + 2 + 2 * IZR (Z.max (Z.abs X) (Z.abs Y))) (2 * H + 1) ->
  exists out, rotate_shift_downsample rotate spline a 0 1 (IZR X) (IZR Y) padFac flip = Ok out /\
  nr out = 2 * (H + 1) /\ nc out = 2 * (H + 1) /\
  (forall i, 0 <= i < 2 * (H + 1) -> at2 out i 0 = 0%R /\ at2 out 0 i = 0%R) /\
  (forall dy dx, - H <= dy <= H -> - H <= dx <= H -> - h <= dy - Y <= h -> - h <= dx - X <= h ->
     at2 out (H + 1 + dy) (H + 1 + dx) = flipped a flip (dy - Y) (dx - X)) /\
  ((forall d, - h <= d <= h -> off_centre a d h = 0%R /\ off_centre a d (- h) = 0%R /\
                               off_centre a h d = 0%R /\ off_centre a (- h) d = 0%R) ->
   forall dy dx, - H <= dy <= H -> - H <= dx <= H ->
     at2 out (H + 1 + dy) (H + 1 + dx) = flipped a flip (dy - Y) (dx - X)).
Proof.
  intros W G Hp Hh Hs HH.
  assert (HH' : least_odd_above (IZR (2 * h + 1) * / IZR 1 + 2 + 2 * Rmax (Rabs (IZR X)) (Rabs (IZR Y))) (2 * H + 1)).
  { rewrite Rinv_1, Rmult_1_r. replace (Rmax (Rabs (IZR X)) (Rabs (IZR Y))) with (IZR (Z.max (Z.abs X) (Z.abs Y))); auto.
    rewrite <- !abs_IZR. unfold Rmax. destruct Rle_dec as [A|A]; [apply le_IZR in A|apply Rnot_le_lt, lt_IZR in A]; f_equal; lia. }
  pose proof (down_ok rotate spline a 0 (/ IZR 1) (IZR X) (IZR Y) padFac flip W ltac:(lra) Hp h H Hh HH' Hs) as (out' & _ & _ & E' & _ & _ & Z0 & _).
  destruct (whole_ok rotate spline a padFac flip 1 X Y h H W G Hp ltac:(lia) Hh HH' Hs) as (out & E & R1 & C1 & V).
  assert (out' = out) by congruence. subst out'. rewrite Rinv_1 in E. exists out. split; [exact E|].
  split; [auto|]. split; [auto|]. split; [auto|].
  assert (V' : forall dy dx, - H <= dy <= H -> - H <= dx <= H ->
    at2 out (H + 1 + dy) (H + 1 + dx) = flipped a flip (clampZ h (dy - Y)) (clampZ h (dx - X))).
  { intros dy dx Hy Hx. rewrite V, !Z.mul_1_r by auto. apply smoothed_point; [unfold clampZ; lia|unfold clampZ; lia|lra]. }
  split.
  - intros dy dx Hy Hx By Bx. rewrite V' by auto. unfold clampZ. f_equal; lia.
  - intros B dy dx Hy Hx. rewrite V' by auto. destruct (shape_le a padFac h Hp W Hh) as [S1 S2].
    destruct (Z_le_dec (- h) (dy - Y)), (Z_le_dec (dy - Y) h), (Z_le_dec (- h) (dx - X)), (Z_le_dec (dx - X) h);
    try (unfold clampZ; f_equal; lia);
    (transitivity 0%R; [|symmetry; unfold flipped; apply (off_centre_outside a h); auto; destruct flip; lia]);
    unfold flipped, clampZ;
    (assert (C : dy - Y < - h \/ dy - Y > h \/ dx - X < - h \/ dx - X > h) by lia);
    assert (Ry : - h <= Z.max (- h) (Z.min h (dy - Y)) <= h) by lia;
    assert (Rx : - h <= Z.max (- h) (Z.min h (dx - X)) <= h) by lia;
    (assert (D : Z.max (- h) (Z.min h (dy - Y)) = h \/ Z.max (- h) (Z.min h (dy - Y)) = - h \/
       Z.max (- h) (Z.min h (dx - X)) = h \/ Z.max (- h) (Z.min h (dx - X)) = - h) by lia);
    generalize dependent (Z.max (- h) (Z.min h (dy - Y))); generalize dependent (Z.max (- h) (Z.min h (dx - X)));
    intros cx Rx cy Ry D; clear - B D Rx Ry;
    destruct flip; destruct D as [D | [D | [D | D]]]; rewrite ?D, ?Z.opp_involutive;
    try (apply (B cx); lia); try (apply (B (- cx)); lia); apply (B cy); lia.
Qed.
