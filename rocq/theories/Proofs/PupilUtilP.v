(** Coarse pupil location. *)
From Coq Require Import ZArith Bool List Reals Lra Lia.
From Flocq Require Import Core.
From Verif.Base Require Import Py Arr Vec Sums F64.
From Verif.Model Require Import Fits PsfFit PupilUtil.
From Verif.Spec Require Import PsfFitSpec PupilUtilSpec.
From Verif.Proofs Require Import PadCropP FitsP PsfFitP.
Import ListNotations.
Open Scope Z_scope.

Lemma sqrt_le_iff u b : (0 <= u)%R -> (0 <= b)%R -> (sqrt u <= b)%R <-> (u <= b ^ 2)%R.
Proof.
  intros Hu Hb. split; intros H.
  - rewrite <- (sqrt_sqrt u) by auto. pose proof (sqrt_pos u). nra.
  - rewrite <- (sqrt_pow2 b) by auto. apply sqrt_le_1_alt. auto.
Qed.
Lemma on_grid_index c r s v : 0 < s -> 0 < r ->
  (on_grid c r s v <-> exists k, 0 <= k < (2 * r + s) / s /\ v = - r + s * k + c).
Proof.
  intros Hs Hr. split.
  - intros (k & Hk & -> & H). exists k. split; [|lia]. split; [auto|].
    apply Z.lt_le_trans with (k + 1); [lia|]. apply Z.div_le_lower_bound; lia.
  - intros (k & Hk & ->). exists k. split; [lia|]. split; [lia|].
    assert (k + 1 <= (2 * r + s) / s) by lia.
    assert (s * ((2 * r + s) / s) <= 2 * r + s) by (apply Z.mul_div_le; lia). nia.
Qed.

Definition roi_at (image : arr R) (beam : R) (x y : Z) (i j : Z) : R :=
  if Rle_dec (IZR (j - nc image / 2 - x) ^ 2 + IZR (i - nr image / 2 - y) ^ 2)%R ((beam / 2) ^ 2)%R then at2 image i j else 0%R.

Lemma once_ok image beam x0 y0 r s : wf image -> (0 < beam)%R -> 0 < r -> 0 < s ->
  exists x y m, coarsely_locate_pupil_offset_once image beam x0 y0 r s = Ok (x, y, m) /\
    best_on_grid image beam x0 y0 r s x y /\
    nr m = 2 * r / s + 1 /\ nc m = 2 * r / s + 1 /\
    forall iy ix, in_arr m iy ix -> at2 m iy ix = disc_flux image beam (x0 - r + s * ix) (y0 - r + s * iy).
Proof.
  intros [Wr Wc] Hb Hr Hs. unfold coarsely_locate_pupil_offset_once.
  assert (Eb : Rltb 0 beam = true) by (apply Rltb_iff; auto). rewrite Eb.
  rewrite (proj2 (Z.ltb_lt 0 r)) by auto. rewrite (proj2 (Z.ltb_lt 0 s)) by auto. cbn [guard bind].
  set (ov := fun iy ix : Z => _).
  assert (Eov : forall iy ix, ov iy ix = disc_flux image beam (x0 - r + s * ix) (y0 - r + s * iy)).
  { intros iy ix. unfold ov.
    assert (T : forall a n, 0 <= n -> (0 <=? a) || (a <=? n - 1) = true).
    { intros a n Hn. destruct (Z.leb_spec 0 a); [auto|]. cbn. apply Z.leb_le. lia. }
    rewrite !T by auto. unfold disc_flux. apply rsum2_ext. intros i j _ _.
    rewrite !Zceil_neg_half.
    replace (- (nc image / 2) + j - (- r + s * ix) - x0) with (j - nc image / 2 - (x0 - r + s * ix)) by lia.
    replace (- (nr image / 2) + i - (- r + s * iy) - y0) with (i - nr image / 2 - (y0 - r + s * iy)) by lia.
    set (u := (IZR (j - nc image / 2 - (x0 - r + s * ix)) ^ 2 + IZR (i - nr image / 2 - (y0 - r + s * iy)) ^ 2)%R).
    assert (Hu : (0 <= u)%R) by (unfold u; nra).
    pose proof (sqrt_le_iff u (beam / 2) Hu ltac:(lra)) as Q. unfold Rleb.
    destruct (Rle_dec (sqrt u) (beam / 2)) as [H|H], (Rle_dec u ((beam / 2) ^ 2)) as [H'|H']; auto; exfalso; tauto. }
  clearbody ov.
  replace (r + 1 - - r + s - 1) with (2 * r + s) by lia.
  assert (Nn : (2 * r + s) / s = 2 * r / s + 1).
  { replace (2 * r + s) with (2 * r + 1 * s) by lia. apply Z.div_add. lia. }
  assert (Np : 0 < (2 * r + s) / s) by (rewrite Nn; pose proof (Z.div_pos (2 * r) s); lia).
  destruct (argmax2_def (Arr ((2 * r + s) / s) ((2 * r + s) / s) ov)) as [p Ep]; [cbn; auto..|].
  rewrite Ep. cbn [bind]. apply argmax2_ok in Ep. cbn [nr nc at2] in Ep. destruct p as [iy ix]. cbn [fst snd] in *.
  destruct Ep as (Hy & Hx & Hm & Hf).
  do 3 eexists. split; [reflexivity|]. split.
  - split; [apply on_grid_index; auto; exists ix; split; [auto|lia]|].
    split; [apply on_grid_index; auto; exists iy; split; [auto|lia]|].
    intros x' y' Gx Gy. apply on_grid_index in Gx as (kx & Kx & ->); auto. apply on_grid_index in Gy as (ky & Ky & ->); auto.
    replace (- r + s * kx + x0) with (x0 - r + s * kx) by lia.
    replace (- r + s * ky + y0) with (y0 - r + s * ky) by lia.
    replace (- r + s * ix + x0) with (x0 - r + s * ix) by lia.
    replace (- r + s * iy + y0) with (y0 - r + s * iy) by lia.
    rewrite <- !Eov. split; [apply Hm; auto|]. intros B. apply Hf; auto. unfold before. nia.
  - cbn. split; [auto|]. split; [auto|]. intros iy' ix' _. apply Eov.
Qed.
Lemma once_rejects image beam x0 y0 r s : (beam <= 0)%R \/ r <= 0 \/ s <= 0 ->
  coarsely_locate_pupil_offset_once image beam x0 y0 r s = Err TypeError.
Proof.
  intros H. unfold coarsely_locate_pupil_offset_once.
  destruct (Rltb 0 beam) eqn:E; [|reflexivity]. apply Rltb_iff in E. cbn [guard bind].
  destruct (Z.ltb_spec 0 r); [|reflexivity]. cbn [guard bind].
  destruct (Z.ltb_spec 0 s); [|reflexivity]. exfalso. destruct H as [H|H]; [lra|lia].
Qed.
Lemma best_unique image beam x0 y0 r s x y x' y' :
  best_on_grid image beam x0 y0 r s x y -> best_on_grid image beam x0 y0 r s x' y' -> x = x' /\ y = y'.
Proof.
  intros (Gx & Gy & H) (Gx' & Gy' & H').
  destruct (H x' y' Gx' Gy') as [L S]. destruct (H' x y Gx Gy) as [L' S'].
  destruct (Z.lt_trichotomy y y') as [Y|[Y|Y]].
  - specialize (S' (or_introl Y)). lra.
  - subst y'. destruct (Z.lt_trichotomy x x') as [X|[X|X]]; [|auto|].
    + specialize (S' (or_intror (conj eq_refl X))). lra.
    + specialize (S (or_intror (conj eq_refl X))). lra.
  - specialize (S (or_introl Y)). lra.
Qed.

(** ** Step sizes *)
Lemma round64_lt x s : binary64 x -> (2 <= x)%R -> binary64 s -> (1 < s)%R -> (round64 (x / s) < x)%R.
Proof.
  intros Fx Hx Fs Hs.
  assert (P : Prec_gt_0 53) by reflexivity.
  (* s is at least the successor of 1 *)
  assert (S1 : (1 + bpow radix2 (-52) <= s)%R).
  { assert (F1 : binary64 1) by (apply (generic_format_bpow radix2 _ 0); cbn; lia).
    pose proof (succ_le_lt radix2 (FLT_exp (-1074) 53) 1 s F1 Fs Hs) as L.
    rewrite succ_eq_pos in L by lra.
    change 1%R with (bpow radix2 0) in L at 2. rewrite ulp_bpow in L. exact L. }
  set (e := bpow radix2 (-52)) in *. assert (He : (0 < e < 1)%R).
  { unfold e. split; [apply bpow_gt_0|]. change 1%R with (bpow radix2 0). apply bpow_lt. lia. }
  set (f := FLT_exp (-1074) 53). assert (Fp : binary64 (pred radix2 f x)) by (apply generic_format_pred; auto; typeclasses eauto).
  pose proof (pred_plus_ulp radix2 f x ltac:(lra) Fx) as PU.
  assert (Pp : (0 <= pred radix2 f x)%R) by (apply pred_ge_0; auto; [typeclasses eauto|lra]).
  assert (PL : (pred radix2 f x <= x)%R) by apply pred_le_id.
  assert (U : (ulp radix2 f (pred radix2 f x) <= ulp radix2 f x)%R).
  { apply ulp_le; [typeclasses eauto..|]. rewrite !Rabs_pos_eq by lra. auto. }
  assert (U2 : (ulp radix2 f x <= x * e)%R).
  { unfold f. pose proof (ulp_FLT_le radix2 (-1074) 53 x) as L. rewrite (Rabs_pos_eq x) in L by lra.
    apply L. apply Rle_trans with 1%R; [|lra]. change 1%R with (bpow radix2 0). apply bpow_le. lia. }
  assert (D : (x / s < x * (1 - e / 2))%R).
  { apply Rle_lt_trans with (x / (1 + e))%R.
    - unfold Rdiv. apply Rmult_le_compat_l; [lra|]. apply Rinv_le_contravar; lra.
    - unfold Rdiv. apply Rmult_lt_compat_l; [lra|]. apply (Rmult_lt_reg_l (1 + e)); [lra|].
      rewrite Rinv_r by lra. nra. }
  apply Rle_lt_trans with (pred radix2 f x).
  - apply round_N_le_midp; auto; [typeclasses eauto|]. rewrite succ_pred by (auto; typeclasses eauto).
    fold f. lra.
  - apply pred_lt_id. lra.
Qed.

Lemma binary64_floor x : binary64 x -> (0 <= x)%R -> binary64 (IZR (Zfloor x)).
Proof.
  intros Fx Hx.
  assert (R : round radix2 (FIX_exp 0) Zfloor x = IZR (Zfloor x)).
  { unfold round, scaled_mantissa, cexp, FIX_exp, F2R. cbn. rewrite !Rmult_1_r. reflexivity. }
  destruct (Rle_lt_dec (bpow radix2 53) x) as [B|B].
  - (* large doubles are integers *)
    assert (G : generic_format radix2 (FIX_exp 0) x).
    { apply (generic_inclusion_ge radix2 (FLT_exp (-1074) 53) (FIX_exp 0) 53); auto.
      - intros e He. unfold FLT_exp, FIX_exp. lia.
      - rewrite Rabs_pos_eq; auto. }
    rewrite <- R, round_generic by (auto; typeclasses eauto). auto.
  - pose proof (Zfloor_lb x). assert (0 <= Zfloor x) by (apply Zfloor_lub; exact Hx).
    apply generic_format_FLT. exists (Float radix2 (Zfloor x) 0); cbn.
    + unfold F2R. cbn. ring.
    + apply lt_IZR. rewrite abs_IZR, Rabs_pos_eq by (apply IZR_le; auto).
      eapply Rle_lt_trans; [eassumption|exact B].
    + lia.
Qed.
Lemma Ztrunc_pos x : (0 <= x)%R -> Ztrunc x = Zfloor x.
Proof. apply Ztrunc_floor. Qed.
Lemma round64_ge0 x : (0 <= x)%R -> (0 <= round64 x)%R.
Proof.
  intros H. rewrite <- (round_0 radix2 (FLT_exp (-1074) 53) ZnearestE). apply round_le; auto; typeclasses eauto.
Qed.

(** Step sizes reachable by the search. *)
Definition good_step (rnd : R -> R) (s : Z) : Prop := 1 <= s /\ rnd (IZR s) = IZR s.
Section Steps.
Context (rnd : R -> R) (beam shrink : R) (M : exact_or_binary64 rnd beam shrink) (Hb : (0 < beam)%R) (Hs : (1 < shrink)%R).
Lemma rnd_floor_good x : (0 <= x)%R -> good_step rnd (Z.max 1 (Zfloor (rnd x))).
Proof.
  intros Hx. split; [lia|]. destruct M as [E|(E & _)]; [apply E|]. rewrite !E.
  apply round_generic; [typeclasses eauto|].
  assert (F1 : binary64 1) by (apply (generic_format_bpow radix2 _ 0); cbn; lia).
  destruct (Z.max_spec 1 (Zfloor (round64 x))) as [[_ ->]|[_ ->]]; [|exact F1].
  apply binary64_floor; [|apply round64_ge0; auto]. apply generic_format_round; typeclasses eauto.
Qed.
Lemma first_step_good : good_step rnd (first_step rnd beam shrink).
Proof. apply rnd_floor_good. apply Rlt_le, Rdiv_lt_0_compat; lra. Qed.
Lemma rnd_ge0 x : (0 <= x)%R -> (0 <= rnd x)%R.
Proof. intros H. destruct M as [E|(E & _)]; rewrite E; [auto|apply round64_ge0; auto]. Qed.
Lemma div_ge0 s : 1 <= s -> (0 <= IZR s / shrink)%R.
Proof. intros H. apply Rlt_le, Rdiv_lt_0_compat; [apply IZR_lt; lia|lra]. Qed.
Lemma next_step_eq s : good_step rnd s -> next_step rnd shrink s = shrunk_step rnd shrink s.
Proof.
  intros [H1 E]. unfold next_step, shrunk_step. rewrite E, Ztrunc_floor by (apply rnd_ge0, div_ge0; auto).
  destruct (Z.ltb_spec (Zfloor (rnd (IZR s / shrink))) 1); lia.
Qed.
Lemma next_step_good s : good_step rnd s -> good_step rnd (next_step rnd shrink s).
Proof. intros H. rewrite next_step_eq by auto. apply rnd_floor_good, div_ge0, H. Qed.
Lemma next_step_lt s : good_step rnd s -> s <> 1 -> 1 <= next_step rnd shrink s < s.
Proof.
  intros G N. pose proof G as [H1 Es]. rewrite next_step_eq by auto. unfold shrunk_step.
  assert (L : (rnd (IZR s / shrink) < IZR s)%R).
  { assert (2 <= IZR s)%R by (apply IZR_le; lia).
    destruct M as [E|(E & _ & Fs)]; rewrite E.
    - apply (Rmult_lt_reg_r shrink); [lra|]. unfold Rdiv. rewrite Rmult_assoc, Rinv_l by lra. nra.
    - apply round64_lt; auto. rewrite E in Es. rewrite <- Es. apply generic_format_round; typeclasses eauto. }
  assert (Zfloor (rnd (IZR s / shrink)) < s).
  { apply lt_IZR. eapply Rle_lt_trans; [apply Zfloor_lb|auto]. }
  lia.
Qed.

Context (image : arr R) (W : wf image).
Lemma loop_ok n : forall s, good_step rnd s -> (Z.to_nat s <= n)%nat -> forall x0 y0 r fuel, 0 < r -> (n <= fuel)%nat ->
  exists x y, coarse_loop fuel rnd image beam shrink x0 y0 r s = Some (Ok (x, y)) /\
    coarse_search image beam (shrunk_step rnd shrink) x0 y0 r s x y.
Proof.
  induction n as [|n IH]; intros s G Hn x0 y0 r fuel Hr Hf; pose proof G as [H1 _]; [lia|].
  destruct fuel as [|fuel]; [lia|]. cbn [coarse_loop].
  destruct (once_ok image beam x0 y0 r s) as (x1 & y1 & m & -> & B & _); auto; [lia|].
  destruct (Z.eqb_spec s 1) as [->|Ns].
  - exists x1, y1. split; [auto|]. constructor. auto.
  - pose proof (next_step_lt s G Ns) as L.
    destruct (IH (next_step rnd shrink s) (next_step_good s G) ltac:(lia) x1 y1 (2 * s) fuel ltac:(lia) ltac:(lia)) as (x & y & E & S).
    exists x, y. split; [auto|]. rewrite next_step_eq in * by auto. econstructor; eauto. lia.
Qed.
Lemma search_unique next x0 y0 r s x y : coarse_search image beam next x0 y0 r s x y ->
  forall x' y', coarse_search image beam next x0 y0 r s x' y' -> x = x' /\ y = y'.
Proof.
  induction 1 as [x0 y0 r x y B|x0 y0 r s x1 y1 x y Hs1 Hn B Sr IH]; intros x' y' S'; inversion S'; subst; try lia.
  - eapply best_unique; eauto.
  - match goal with H : best_on_grid _ _ ?a ?b ?c s ?d ?e, H' : coarse_search _ _ _ ?d ?e _ _ x' y' |- _ =>
      destruct (best_unique _ _ _ _ _ _ _ _ _ _ B H); subst end.
    apply IH; auto.
Qed.
Lemma locate_ok fuel : (2 <= nr image \/ 2 <= nc image) -> (Z.to_nat (first_step rnd beam shrink) <= fuel)%nat ->
  exists x y, coarsely_locate_pupil_offset fuel rnd image beam shrink = Some (Ok (x, y)) /\
    coarse_search image beam (shrunk_step rnd shrink) 0 0 (Z.max (nc image / 2) (nr image / 2))
      (Z.max 1 (Zfloor (rnd (beam / shrink)%R))) x y.
Proof.
  intros Hsz Hf. unfold coarsely_locate_pupil_offset.
  rewrite (proj2 (Rltb_iff 0 beam)) by auto. rewrite (proj2 (Rltb_iff 0 shrink)) by lra.
  rewrite (proj2 (Rleb_false shrink 1)) by auto. cbn [negb].
  change (Z.max 1 (Zfloor (rnd (beam / shrink)%R))) with (first_step rnd beam shrink).
  eapply loop_ok; eauto using first_step_good.
  assert (forall n, 2 <= n -> 1 <= n / 2) as D by (intros n Hn; apply Z.div_le_lower_bound; lia).
  destruct Hsz as [Q|Q]; apply D in Q; lia.
Qed.
End Steps.

Lemma locate_rejects fuel rnd image beam shrink : (beam <= 0 \/ shrink <= 1)%R ->
  coarsely_locate_pupil_offset fuel rnd image beam shrink = Some (Err TypeError).
Proof.
  intros H. unfold coarsely_locate_pupil_offset. destruct (Rltb 0 beam) eqn:Eb; [|auto]. apply Rltb_iff in Eb.
  destruct (Rltb 0 shrink) eqn:Es; [|auto]. apply Rltb_iff in Es. cbn [negb].
  rewrite (proj2 (Rleb_iff shrink 1)) by lra. auto.
Qed.
Lemma locate_one_pixel fuel rnd image beam shrink : nr image <= 1 -> nc image <= 1 -> (0 < fuel)%nat ->
  coarsely_locate_pupil_offset fuel rnd image beam shrink = Some (Err TypeError).
Proof.
  intros Hr Hc Hf. unfold coarsely_locate_pupil_offset.
  destruct (negb (Rltb 0 beam)); [auto|]. destruct (negb (Rltb 0 shrink)); [auto|]. destruct (Rleb shrink 1); [auto|].
  destruct fuel as [|fuel]; [lia|]. cbn [coarse_loop]. rewrite once_rejects; [auto|]. right. left.
  apply Z.max_lub.
  - apply Z.lt_succ_r. apply Z.div_lt_upper_bound; lia.
  - apply Z.lt_succ_r. apply Z.div_lt_upper_bound; lia.
Qed.

(** ** Recovery of a uniform disc *)
Lemma disc_strict image beam cx cy x y : wf image -> (0 < beam)%R -> disc_image image beam cx cy -> (x, y) <> (cx, cy) ->
  (disc_flux image beam x y < disc_flux image beam cx cy)%R.
Proof.
  intros W Hb [(v & Hv & Hval) Hin] N. apply Rnot_le_lt. intros L.
  set (T := fun a b i j => if Rle_dec (IZR (j - nc image / 2 - a) ^ 2 + IZR (i - nr image / 2 - b) ^ 2)%R ((beam / 2) ^ 2)%R then at2 image i j else 0%R).
  assert (D : forall i j, 0 <= i < nr image -> 0 <= j < nc image -> (0 <= T cx cy i j - T x y i j)%R).
  { intros i j Hi Hj. unfold T. destruct (Hval i j (conj Hi Hj)) as [V1 V2]. unfold in_beam in V1, V2.
    destruct (Rle_dec (IZR (j - nc image / 2 - cx) ^ 2 + IZR (i - nr image / 2 - cy) ^ 2) ((beam / 2) ^ 2)) as [A|A].
    - rewrite V1 by auto. destruct Rle_dec; lra.
    - rewrite V2 by auto. destruct Rle_dec; lra. }
  assert (Z0 : rsum2 (fun i j => T cx cy i j - T x y i j)%R (nr image) (nc image) = 0%R).
  { apply Rle_antisym; [|apply rsum2_nonneg; auto]. rewrite rsum2_sub. unfold disc_flux in L. unfold T. lra. }
  assert (Q : forall i j, in_beam image beam cx cy i j -> in_beam image beam x y i j).
  { intros i j Bm. pose proof (Hin i j Bm) as [Hi Hj].
    pose proof (rsum2_nonneg_zero _ _ _ D Z0 i j Hi Hj) as E. cbv beta in E. unfold T in E.
    destruct (Hval i j (conj Hi Hj)) as [V1 _]. rewrite (V1 Bm) in E.
    destruct (Rle_dec (IZR (j - nc image / 2 - cx) ^ 2 + _) _) as [_|A] in E; [|exfalso; apply A, Bm].
    destruct (Rle_dec (IZR (j - nc image / 2 - x) ^ 2 + _) _) as [A|_] in E; [exact A|lra]. }
  (* walking back along the displacement never leaves the disc *)
  assert (Wk : forall k : nat, in_beam image beam cx cy (nr image / 2 + cy - Z.of_nat k * (y - cy)) (nc image / 2 + cx - Z.of_nat k * (x - cx))).
  { induction k as [|k IH].
    - unfold in_beam. replace (_ - nc image / 2 - cx) with 0 by lia. replace (_ - nr image / 2 - cy) with 0 by lia. nra.
    - apply Q in IH. unfold in_beam in *.
      replace (nc image / 2 + cx - Z.of_nat (S k) * (x - cx) - nc image / 2 - cx)
        with (nc image / 2 + cx - Z.of_nat k * (x - cx) - nc image / 2 - x) by lia.
      replace (nr image / 2 + cy - Z.of_nat (S k) * (y - cy) - nr image / 2 - cy)
        with (nr image / 2 + cy - Z.of_nat k * (y - cy) - nr image / 2 - y) by lia. exact IH. }
  set (k := Z.to_nat (up beam)). specialize (Wk k). unfold in_beam in Wk.
  replace (_ - nc image / 2 - cx) with (- (Z.of_nat k * (x - cx))) in Wk by lia.
  replace (_ - nr image / 2 - cy) with (- (Z.of_nat k * (y - cy))) in Wk by lia.
  rewrite !opp_IZR, !mult_IZR in Wk.
  assert (Kb : (beam < IZR (Z.of_nat k))%R).
  { unfold k. pose proof (archimed beam) as [A _]. rewrite Z2Nat.id; [lra|]. apply le_IZR. lra. }
  assert (G : (1 <= IZR (x - cx) ^ 2 + IZR (y - cy) ^ 2)%R).
  { replace (IZR (x - cx) ^ 2 + IZR (y - cy) ^ 2)%R with (IZR ((x - cx) * (x - cx) + (y - cy) * (y - cy)))
      by (rewrite plus_IZR, !mult_IZR; ring).
    apply IZR_le. assert (x <> cx \/ y <> cy).
    { destruct (Z.eq_dec x cx); [|auto]. right. intros ->. apply N. congruence. }
    pose proof (Z.square_nonneg (x - cx)). pose proof (Z.square_nonneg (y - cy)).
    assert (0 < (x - cx) * (x - cx) \/ 0 < (y - cy) * (y - cy)) by (destruct H; [left|right]; nia). lia. }
  set (K := IZR (Z.of_nat k)) in *. set (u := IZR (x - cx)) in *. set (w := IZR (y - cy)) in *.
  assert (E : ((- (K * u)) ^ 2 + (- (K * w)) ^ 2 = K ^ 2 * (u ^ 2 + w ^ 2))%R) by ring. rewrite E in Wk.
  assert (K ^ 2 <= K ^ 2 * (u ^ 2 + w ^ 2))%R by (assert (0 <= K ^ 2)%R by nra; nra). nra.
Qed.
Lemma best_disc image beam cx cy x0 y0 r s x y : wf image -> (0 < beam)%R -> disc_image image beam cx cy ->
  on_grid x0 r s cx -> on_grid y0 r s cy -> best_on_grid image beam x0 y0 r s x y -> x = cx /\ y = cy.
Proof.
  intros W Hb D Gx Gy (_ & _ & H). destruct (H cx cy Gx Gy) as [L _].
  destruct (Z.eq_dec x cx) as [->|Nx]; [destruct (Z.eq_dec y cy) as [->|Ny]; [auto|]|].
  - pose proof (disc_strict image beam cx cy cx y W Hb D ltac:(congruence)). lra.
  - pose proof (disc_strict image beam cx cy x y W Hb D ltac:(congruence)). lra.
Qed.
Lemma locate_disc fuel rnd image beam shrink cx cy : exact_or_binary64 rnd beam shrink -> wf image -> (0 < beam)%R ->
  (1 < shrink)%R -> (2 <= nr image \/ 2 <= nc image) -> (rnd (beam / shrink) < 2)%R -> (0 < fuel)%nat ->
  disc_image image beam cx cy -> coarsely_locate_pupil_offset fuel rnd image beam shrink = Some (Ok (cx, cy)).
Proof.
  intros M W Hb Hs Hsz H2 Hf D.
  assert (F1 : first_step rnd beam shrink = 1).
  { unfold first_step. enough (Zfloor (rnd (beam / shrink)%R) < 2) by lia. apply lt_IZR.
    eapply Rle_lt_trans; [apply Zfloor_lb|exact H2]. }
  destruct (locate_ok rnd beam shrink M Hb Hs image W fuel Hsz) as (x & y & E & S).
  { rewrite F1. cbn. lia. }
  rewrite E. change (Z.max 1 (Zfloor (rnd (beam / shrink)%R))) with (first_step rnd beam shrink) in S. rewrite F1 in S.
  inversion S as [? ? ? ? ? B|]; subst; [|lia].
  destruct (D) as [_ Hin].
  assert (C : in_arr image (nr image / 2 + cy) (nc image / 2 + cx)).
  { apply Hin. unfold in_beam. replace (_ - nc image / 2 - cx) with 0 by lia. replace (_ - nr image / 2 - cy) with 0 by lia. nra. }
  destruct C as [Cy Cx]. cbn in *.
  assert (Gd : forall n m c, 0 <= n / 2 + c < n -> n / 2 <= m -> on_grid 0 m 1 c).
  { intros n m c H L. exists (c + m). pose proof (Z.div_mod n 2). pose proof (Z.mod_pos_bound n 2). lia. }
  destruct (best_disc image beam cx cy 0 0 (Z.max (nc image / 2) (nr image / 2)) 1 x y W Hb D) as [-> ->]; auto.
  - apply (Gd (nc image)); [auto|apply Z.le_max_l].
  - apply (Gd (nr image)); [auto|apply Z.le_max_r].
Qed.
