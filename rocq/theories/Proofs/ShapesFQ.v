(** The binary64 circle: range, symmetry, whole-pixel shifts, growth with the radius. *)
From Coq Require Import ZArith Reals Bool Lia Lra.
From Flocq Require Import Core BinarySingleNaN.
From Verif.Base Require Import Py Arr Sums F64.
From Verif.Model Require Import ShapesF.
From Verif.Spec Require Import ShapesFSpec.
From Verif.Proofs Require Import F64P ShapesFP.
Local Open Scope R_scope.
Local Notation B := (bpow radix2).

Lemma circle_f_at nx ny r xo yo ns isDark : circle_args nx ny r xo yo ns ->
  exists m, circle_f nx ny r xo yo ns isDark = Ok m /\ nr m = ny /\ nc m = nx /\
  forall i j, (0 <= i < ny)%Z -> (0 <= j < nx)%Z ->
    at2 m i j = let v := pix (fval r) (band nx (fval xo)) ns (col nx (fval xo) j) (col ny (fval yo) i) in
                if isDark then fsub (fofZ 1) v else v.
Proof. intros (A1 & A2 & A3 & A4 & A5 & A6 & A7). exact (circle_f_ok nx ny r xo yo ns isDark A1 A2 A3 A4 A5 A6 A7). Qed.

Lemma frac_val c ns : (1 <= ns <= 2 ^ 26)%Z -> (0 <= c <= ns * ns)%Z ->
  fval (fdiv (fofZ c) (fofZ (ns * ns))) = rnd64 (IZR c / IZR (ns * ns)) /\ is_finite (fdiv (fofZ c) (fofZ (ns * ns))) = true.
Proof.
  intros Hn Hc. assert (S : (1 <= ns * ns <= 2 ^ 52)%Z) by nia.
  destruct (fdiv_int_within 52 (fofZ c) (ns * ns) ltac:(lia) (fofZ_within 52 c ltac:(lia) ltac:(lia)) ltac:(lia)) as [V W].
  destruct (fofZ_spec c ltac:(lia)) as [Vc _]. rewrite Vc in V. split; [exact V|apply W].
Qed.
Lemma frac_range c ns : (1 <= ns <= 2 ^ 26)%Z -> (0 <= c <= ns * ns)%Z -> 0 <= rnd64 (IZR c / IZR (ns * ns)) <= 1.
Proof.
  intros Hn Hc. assert (P : 0 < IZR (ns * ns)) by (apply IZR_lt; nia).
  split.
  - apply rnd_nonneg. apply Rmult_le_pos; [apply IZR_le; lia|apply Rlt_le, Rinv_0_lt_compat, P].
  - rewrite <- (rnd_IZR 1) by lia. apply rnd_mono. apply Rmult_le_reg_r with (IZR (ns * ns)); auto.
    unfold Rdiv. rewrite Rmult_assoc, Rinv_l, Rmult_1_r, Rmult_1_l by lra. apply IZR_le. lia.
Qed.
Definition pixv (r h : R) (ns : Z) (x y : R) : R :=
  if Rlt_bool (rnd64 (r + h)) (dist x y) then 0
  else if Rlt_bool (dist x y) (rnd64 (r - h)) then 1
  else rnd64 (IZR (zcount (covers r ns x y) ns) / IZR (ns * ns)).
Lemma pix_val r h ns x y : (1 <= ns <= 2 ^ 26)%Z ->
  fval (pix r h ns x y) = pixv r h ns x y /\ is_finite (pix r h ns x y) = true /\ 0 <= pixv r h ns x y <= 1.
Proof.
  intros Hn. unfold pix, pixv. pose proof (zcount_range (covers r ns x y) ns ltac:(lia)) as C.
  destruct (Rlt_bool (rnd64 (r + h)) (dist x y)); [split; [reflexivity|split; [reflexivity|lra]]|].
  destruct (Rlt_bool (dist x y) (rnd64 (r - h))).
  - destruct (fofZ_spec 1 ltac:(lia)) as [V F]. split; auto. split; auto. lra.
  - destruct (frac_val _ ns Hn C) as [V F]. split; auto. split; auto. apply frac_range; auto.
Qed.
Lemma dark_val v : is_finite v = true -> 0 <= fval v <= 1 ->
  fval (fsub (fofZ 1) v) = rnd64 (1 - fval v) /\ is_finite (fsub (fofZ 1) v) = true.
Proof.
  intros F H. destruct (fofZ_spec 1 ltac:(lia)) as [V1 F1].
  destruct (fsub_within 0 (fofZ 1) v ltac:(lia) (fofZ_within 0 1 ltac:(lia) ltac:(lia))) as [V W].
  - split; auto. rewrite Rabs_right by lra. cbn. lra.
  - rewrite V1 in V. split; [exact V|apply W].
Qed.
Lemma rnd_unit v : 0 <= v <= 1 -> 0 <= rnd64 (1 - v) <= 1.
Proof.
  intros H. split; [apply rnd_nonneg; lra|]. apply Rle_trans with (rnd64 1); [apply rnd_mono; lra|right; exact (rnd_IZR 1 ltac:(lia))].
Qed.

Lemma circle_f_range nx ny r xo yo ns isDark m i j : circle_args nx ny r xo yo ns ->
  circle_f nx ny r xo yo ns isDark = Ok m -> in_arr m i j -> is_finite (at2 m i j) = true /\ 0 <= fval (at2 m i j) <= 1.
Proof.
  intros HA HM [Hi Hj]. destruct (circle_f_at nx ny r xo yo ns isDark HA) as (m' & E & Er & Ec & P).
  rewrite HM in E. injection E as <-. rewrite Er in Hi. rewrite Ec in Hj. rewrite P by auto. cbv zeta.
  assert (Hn : (1 <= ns <= 2 ^ 26)%Z) by apply HA.
  destruct (pix_val (fval r) (band nx (fval xo)) ns (col nx (fval xo) j) (col ny (fval yo) i) Hn) as (V & F & I).
  rewrite <- V in I. destruct isDark; [|auto]. destruct (dark_val _ F I) as [V' F']. split; auto. rewrite V'. apply rnd_unit, I.
Qed.

(** Symmetries of one pixel. *)
Lemma up_rev ns q : up ns (ns - 1 - q) = - up ns q.
Proof.
  unfold up. rewrite <- rnd_opp. f_equal. replace (2 * (ns - 1 - q) + 1 - ns)%Z with (- (2 * q + 1 - ns))%Z by lia.
  rewrite opp_IZR. field.
Qed.
Lemma covers_opp r ns x y p q : covers r ns (- x) y p q = covers r ns x y p (ns - 1 - q).
Proof.
  unfold covers. rewrite up_rev. replace (- up ns q + x) with (- (up ns q + - x)) by ring. rewrite rnd_opp, dist_opp. reflexivity.
Qed.
Lemma pix_opp r h ns x y : pix r h ns (- x) y = pix r h ns x y.
Proof.
  unfold pix. rewrite dist_opp. rewrite (zcount_ext (covers r ns (- x) y) (fun p q => covers r ns x y p (ns - 1 - q)) ns).
  - rewrite (zcount_revq (covers r ns x y)). reflexivity.
  - intros. apply covers_opp.
Qed.
Lemma pix_swap r h ns x y : pix r h ns y x = pix r h ns x y.
Proof.
  unfold pix. rewrite dist_sym. rewrite (zcount_ext (covers r ns y x) (fun p q => covers r ns x y q p) ns).
  - rewrite (zcount_swap (covers r ns x y)). reflexivity.
  - intros. unfold covers. rewrite dist_sym. reflexivity.
Qed.
Lemma pix_opp2 r h ns x y : pix r h ns x (- y) = pix r h ns x y.
Proof. rewrite pix_swap, pix_opp, pix_swap. reflexivity. Qed.
Lemma abs_cases a b : Z.abs a = Z.abs b -> IZR a = IZR b \/ IZR a = - IZR b.
Proof. intros H. rewrite <- opp_IZR. assert (a = b \/ a = - b)%Z as [-> | ->] by lia; auto. Qed.
Lemma pix_mirror r h ns u v u' v' : mirrored u v u' v' -> pix r h ns (IZR u) (IZR v) = pix r h ns (IZR u') (IZR v').
Proof.
  intros [[Hu Hv]|[Hu Hv]]; apply abs_cases in Hu, Hv; destruct Hu as [-> | ->], Hv as [-> | ->];
    rewrite ?pix_opp, ?pix_opp2; auto; apply pix_swap.
Qed.

Lemma col_whole n a j : (0 <= j < n)%Z -> (n <= 2 ^ 50)%Z -> (Z.abs a <= 2 ^ 50)%Z -> col n (IZR a) j = IZR (shift_from n a j).
Proof.
  intros Hj Hn Ha. unfold col, shift_from. rewrite <- minus_IZR. apply rnd_IZR.
  assert (0 <= n / 2 <= n)%Z by (split; [apply Z.div_pos; lia|apply Z.div_le_upper_bound; lia]). lia.
Qed.
Lemma band_whole n a : (1 < n <= 2 ^ 50)%Z -> (Z.abs a <= 2 ^ 50)%Z -> band n (IZR a) = rnd64 (rnd64 (sqrt 2)).
Proof.
  intros Hn Ha. unfold band. rewrite !col_whole by lia. rewrite <- minus_IZR.
  replace (shift_from n a 1 - shift_from n a 0)%Z with 1%Z by (unfold shift_from; lia).
  rewrite (rnd_IZR 1) by lia. rewrite Rmult_1_r. reflexivity.
Qed.
Lemma circle_f_mirror nx ny nx' ny' r xo yo xo' yo' ns isDark m m' a b a' b' i j i' j' :
  circle_args nx ny r xo yo ns -> circle_args nx' ny' r xo' yo' ns ->
  whole_offsets xo yo a b -> whole_offsets xo' yo' a' b' ->
  circle_f nx ny r xo yo ns isDark = Ok m -> circle_f nx' ny' r xo' yo' ns isDark = Ok m' ->
  in_arr m i j -> in_arr m' i' j' ->
  mirrored (shift_from nx a j) (shift_from ny b i) (shift_from nx' a' j') (shift_from ny' b' i') ->
  at2 m i j = at2 m' i' j'.
Proof.
  intros HA HA' (Wx & Wy & Wa & Wb) (Wx' & Wy' & Wa' & Wb') HM HM' [Hi Hj] [Hi' Hj'] HMM.
  destruct (circle_f_at nx ny r xo yo ns isDark HA) as (m0 & E & Er & Ec & P).
  rewrite HM in E. injection E as <-. rewrite Er in Hi. rewrite Ec in Hj.
  destruct (circle_f_at nx' ny' r xo' yo' ns isDark HA') as (m1 & E' & Er' & Ec' & P').
  rewrite HM' in E'. injection E' as <-. rewrite Er' in Hi'. rewrite Ec' in Hj'.
  destruct HA as (A1 & A2 & _). destruct HA' as (A1' & A2' & _).
  rewrite P, P' by auto. cbv zeta. rewrite Wx, Wy, Wx', Wy'.
  rewrite !band_whole, !col_whole by lia. rewrite (pix_mirror _ _ _ _ _ _ _ HMM). reflexivity.
Qed.

(** A larger radius never dims a pixel. *)
Lemma pixv_mono r r' h ns x y : r <= r' -> (1 <= ns <= 2 ^ 26)%Z -> pixv r h ns x y <= pixv r' h ns x y.
Proof.
  intros Hr Hn. destruct (pix_val r h ns x y Hn) as (_ & _ & I). destruct (pix_val r' h ns x y Hn) as (_ & _ & I').
  unfold pixv in *. assert (S1 : rnd64 (r + h) <= rnd64 (r' + h)) by (apply rnd_mono; lra).
  assert (S2 : rnd64 (r - h) <= rnd64 (r' - h)) by (apply rnd_mono; lra).
  destruct (Rlt_bool_spec (rnd64 (r + h)) (dist x y)) as [L|L].
  - lra.
  - rewrite (Rlt_bool_false (rnd64 (r' + h))) in * by lra.
    destruct (Rlt_bool_spec (dist x y) (rnd64 (r' - h))) as [L'|L']; [lra|].
    rewrite (Rlt_bool_false (dist x y) (rnd64 (r - h))) by lra.
    apply rnd_mono. apply Rmult_le_compat_r; [apply Rlt_le, Rinv_0_lt_compat, IZR_lt; nia|].
    apply IZR_le, zcount_le. intros p q _ _. unfold covers.
    destruct (Rle_bool_spec (dist (rnd64 (up ns q + x)) (rnd64 (up ns p + y))) r) as [D|D]; [|discriminate].
    intros _. apply Rle_bool_true. lra.
Qed.
Lemma circle_f_mono nx ny r r' xo yo ns isDark m m' i j : circle_args nx ny r xo yo ns -> circle_args nx ny r' xo yo ns ->
  fval r <= fval r' -> circle_f nx ny r xo yo ns isDark = Ok m -> circle_f nx ny r' xo yo ns isDark = Ok m' -> in_arr m i j ->
  if isDark then fval (at2 m' i j) <= fval (at2 m i j) else fval (at2 m i j) <= fval (at2 m' i j).
Proof.
  intros HA HA' Hr HM HM' [Hi Hj].
  destruct (circle_f_at nx ny r xo yo ns isDark HA) as (m0 & E & Er & Ec & P).
  rewrite HM in E. injection E as <-. rewrite Er in Hi. rewrite Ec in Hj.
  destruct (circle_f_at nx ny r' xo yo ns isDark HA') as (m1 & E' & _ & _ & P').
  rewrite HM' in E'. injection E' as <-. assert (Hn : (1 <= ns <= 2 ^ 26)%Z) by apply HA.
  rewrite P, P' by auto. cbv zeta.
  destruct (pix_val (fval r) (band nx (fval xo)) ns (col nx (fval xo) j) (col ny (fval yo) i) Hn) as (V & F & I).
  destruct (pix_val (fval r') (band nx (fval xo)) ns (col nx (fval xo) j) (col ny (fval yo) i) Hn) as (V' & F' & I').
  pose proof (pixv_mono (fval r) (fval r') (band nx (fval xo)) ns (col nx (fval xo) j) (col ny (fval yo) i) Hr Hn) as L.
  rewrite <- V in I, L. rewrite <- V' in I', L. destruct isDark; [|exact L].
  rewrite (proj1 (dark_val _ F I)), (proj1 (dark_val _ F' I')). apply rnd_mono. lra.
Qed.
Lemma circle_f_total nx ny r xo yo ns isDark : circle_args nx ny r xo yo ns ->
  exists m, circle_f nx ny r xo yo ns isDark = Ok m /\ nr m = ny /\ nc m = nx /\
  forall i j, in_arr m i j -> is_finite (at2 m i j) = true /\ 0 <= fval (at2 m i j) <= 1.
Proof.
  intros HA. destruct (circle_f_at nx ny r xo yo ns isDark HA) as (m & E & Er & Ec & _). exists m.
  split; auto. split; auto. split; auto. intros i j. apply (circle_f_range nx ny r xo yo ns isDark m i j HA E).
Qed.
