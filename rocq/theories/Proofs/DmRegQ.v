(** Deformable-mirror registration: quadratic costs and consistent data. *)
From Coq Require Import ZArith Bool List String Reals Lra Lia.
From Verif.Base Require Import Py Arr Vec Sums Lstsq Trig.
From Verif.Model Require Import Math Noll Fits Shapes PadCrop Dm Yaml PsfFit PupilUtil Unwrap Occastro DmReg.
From Verif.Spec Require Import FitsSpec DmSpec PsfFitSpec PupilUtilSpec UnwrapSpec DmRegSpec.
From Verif.Proofs Require Import PadCropP FitsP DmP ShapesP DarkHoleP UnwrapP QuadFitP OccastroP DmRegP.
Import ListNotations.
Open Scope Z_scope.

Lemma clock_angle_trial w n i : 2 <= n -> clock_angle w n i = trial n (2 * w / (IZR n - 1)) 0 i.
Proof.
  intros Hn. unfold clock_angle, trial. rewrite (proj2 (Z.eqb_neq n 1)) by lia.
  assert (1 <= IZR n - 1)%R by (rewrite <- minus_IZR; apply IZR_le; lia). rewrite ?minus_IZR. field. lra.
Qed.
Lemma step_nz w n : 2 <= n -> w <> 0%R -> (2 * w / (IZR n - 1) <> 0)%R.
Proof.
  intros Hn Hw. assert (1 <= IZR n - 1)%R by (rewrite <- minus_IZR; apply IZR_le; lia). unfold Rdiv.
  apply Rmult_integral_contrapositive_currified; [lra|]. apply Rinv_neq_0_compat. lra.
Qed.
Lemma angles_distinct w n : 3 <= n -> w <> 0%R -> three_distinct (Vec n (clock_angle w n)).
Proof.
  intros Hn Hw. pose proof (step_nz w n ltac:(lia) Hw) as D. exists 0, 1, 2. cbn [vlen vat]. rewrite !clock_angle_trial by lia.
  set (d := (2 * w / (IZR n - 1))%R) in *. unfold trial. repeat split; try lia; intros E; apply D; lra.
Qed.
Lemma parabola_exact xs ys a b c p2 p1 p0 : three_distinct xs -> (forall i, 0 <= i < vlen xs -> vat ys i = (a * vat xs i ^ 2 + b * vat xs i + c)%R) ->
  best_parabola xs ys p2 p1 p0 -> p2 = a /\ p1 = b /\ p0 = c.
Proof.
  intros D E B. assert (B' : best_parabola xs ys a b c); [|destruct (best_parabola_unique _ _ _ _ _ _ _ _ D B B') as (-> & -> & ->); auto].
  intros q2 q1 q0. unfold sq_err. rewrite (rsum_ext _ (fun _ => 0%R)).
  - rewrite rsum_zero by auto. apply rsum_nonneg. intros i Hi. cbn beta. apply pow2_ge_0.
  - intros i Hi. cbn beta. rewrite E by auto. ring.
Qed.
Lemma clock_exact G n w s c0 c a C v : 3 <= n -> w <> 0%R -> (s <> 0)%R -> (a <> 0)%R ->
  (forall i, 0 <= i < n -> let t := (c0 + s * clock_angle w n i)%R in G t = (a * (t - C) ^ 2 + v)%R) ->
  clock_pass G n false w s c0 c -> c = (c0 + (C - c0) / s)%R.
Proof.
  intros Hn Hw Hs Ha HG (p2 & p1 & p0 & B & _ & ->).
  apply (parabola_exact _ _ (a * s ^ 2) (2 * a * s * (c0 - C)) (a * (c0 - C) ^ 2 + v)) in B as (-> & -> & _); [|apply angles_distinct; auto|].
  2:{ intros i Hi. cbn [vat vlen] in *. rewrite HG by auto. ring. }
  field. auto.
Qed.
Lemma clocks_inv G n nIter w s iter k c0 c : clock_passes G n nIter w s iter (Datatypes.S k) c0 c ->
  exists c1, clock_pass G n (Nat.eqb iter 0 && (1 <? nIter)) w (s ^ iter) c0 c1 /\ clock_passes G n nIter w s (Datatypes.S iter) k c1 c.
Proof. intros H. inversion H; subst. eauto. Qed.
Lemma clock_overshoot G n nIter w s a C v : 3 <= n -> w <> 0%R -> (s <> 0)%R -> (a <> 0)%R ->
  (forall t, G t = (a * (t - C) ^ 2 + v)%R) ->
  forall k iter c0 c, (0 < iter)%nat -> clock_passes G n nIter w s iter k c0 c -> (c - C = (c0 - C) * overshoot s iter k)%R.
Proof.
  intros Hn Hw Hs Ha HG. induction k as [|k IH]; intros iter c0 c Hi H; [inversion H; subst; cbn [overshoot]; ring|].
  apply clocks_inv in H as (c1 & H1 & H6). cbn [overshoot]. destruct iter as [|iter]; [lia|]. cbn [Nat.eqb andb] in H1. assert (P : (s ^ Datatypes.S iter <> 0)%R) by (apply pow_nonzero; auto).
  apply (clock_exact _ _ _ _ _ _ a C v) in H1; auto. apply IH in H6; [|lia]. rewrite H6. rewrite H1. field. auto.
Qed.
Lemma clock_single G n w s c0 c a C v : 3 <= n -> w <> 0%R -> (a <> 0)%R ->
  (forall i, 0 <= i < n -> let t := (c0 + clock_angle w n i)%R in G t = (a * (t - C) ^ 2 + v)%R) ->
  clock_passes G n 1 w s 0 1 c0 c -> c = C.
Proof.
  intros Hn Hw Ha HG H. apply clocks_inv in H as (c1 & H1 & H6). inversion H6; subst. change (Nat.eqb 0 0 && (1 <? 1)) with false in H1. cbn [pow] in H1.
  apply (clock_exact _ _ _ _ _ _ a C v) in H1; auto; [rewrite H1; field|]. intros i Hi. rewrite Rmult_1_l. apply HG; auto.
Qed.
(** Without shrinking, any number of passes ends at the optimum. *)
Lemma clock_unshrunk G n nIter w c0 c a C v : 3 <= n -> w <> 0%R -> (a <> 0)%R -> (1 <= nIter) ->
  (forall t, G t = (a * (t - C) ^ 2 + v)%R) -> clock_passes G n nIter w 1 0 (Z.to_nat nIter) c0 c -> c = C.
Proof.
  intros Hn Hw Ha Hi HG H. destruct (Z.eq_dec nIter 1) as [->|N].
  - apply (clock_single G n w 1 c0 c a C v) in H; auto.
  - replace (Z.to_nat nIter) with (Datatypes.S (Datatypes.S (Z.to_nat (nIter - 2)))) in H by lia. apply clocks_inv in H as (c1 & _ & H6).
    apply (clock_overshoot _ _ _ _ _ a C v) in H6; auto. cbn [overshoot] in H6.
    replace (1 - / 1 ^ 1)%R with 0%R in H6 by field. rewrite Rmult_0_l, Rmult_0_r in H6. lra.
Qed.
Lemma grid_exact F n u x y a b c p q r : unisolvent2 (Vec n u) (Vec n u) (afull n n 1%R) -> 
  (forall i j, 0 <= i < n -> 0 <= j < n -> F (u j) (u i) = quad2 a b c p q r (u j) (u i)) ->
  grid_fit F n u x y -> (b ^ 2 - 4 * a * c <> 0)%R /\ stationary a b c p q x y.
Proof.
  intros U HF (a1 & b1 & c1 & p1 & q1 & r1 & M & D & S).
  assert (Z0 : quad_fit_err F n u a b c p q r = 0%R).
  { unfold quad_fit_err. rewrite (rsum2_ext _ (fun _ _ => 0%R)); [apply rsum2_all_zero; auto|]. intros i j Hi Hj. rewrite HF by auto. ring. }
  assert (P : forall i j, 0 <= i < n -> 0 <= j < n -> ((quad2 a1 b1 c1 p1 q1 r1 (u j) (u i) - F (u j) (u i)) ^ 2 = 0)%R).
  { pose proof (M a b c p q r) as L. rewrite Z0 in L. intros i j Hi Hj. apply Rle_antisym; [|apply pow2_ge_0]. eapply Rle_trans; [|exact L].
    apply (rsum2_term_le (fun i j => (quad2 a1 b1 c1 p1 q1 r1 (u j) (u i) - F (u j) (u i)) ^ 2)%R n n i j); auto. intros; apply pow2_ge_0. }
  destruct (U (a1 - a) (b1 - b) (c1 - c) (p1 - p) (q1 - q) (r1 - r))%R as (E1 & E2 & E3 & E4 & E5 & _).
  - intros i j [Hi Hj] _. cbn [vat afull nr nc] in *. specialize (P i j Hi Hj). rewrite HF in P by auto.
    assert (T : forall t, (t ^ 2 = 0 -> t = 0)%R) by (intros t Ht; destruct (Rmult_integral t t); [lra|auto|auto]). apply T in P. unfold quad2 in *. lra.
  - replace a1 with a in * by lra. replace b1 with b in * by lra. replace c1 with c in * by lra. replace p1 with p in * by lra. replace q1 with q in * by lra. auto.
Qed.
Lemma angles_unisolvent w n : 3 <= n -> w <> 0%R -> unisolvent2 (Vec n (clock_angle w n)) (Vec n (clock_angle w n)) (afull n n 1%R).
Proof.
  intros Hn Hw. apply (grid_unisolvent n (2 * w / (IZR n - 1)) 0 0); auto; [apply step_nz; [lia|auto]|..]; intros i Hi; apply clock_angle_trial; lia.
Qed.
(** A translation pass on costs that are quadratic at the trial points ends at the stationary point. *)
Lemma offset_exact F n w x0 y0 x y a b c p q r : 3 <= n -> w <> 0%R ->
  (forall i j, 0 <= i < n -> 0 <= j < n -> let u := (x0 + clock_angle w n j)%R in let v := (y0 + clock_angle w n i)%R in F u v = quad2 a b c p q r u v) ->
  offset_pass F n false w x0 y0 x y -> stationary a b c p q x y.
Proof.
  intros Hn Hw HF H. unfold offset_pass in H.
  apply (grid_exact _ _ _ _ _ a b c (p + 2 * a * x0 + b * y0) (q + 2 * c * y0 + b * x0) (quad2 a b c p q r x0 y0)) in H.
  - destruct H as [_ [S1 S2]]. split; lra.
  - apply angles_unisolvent; auto.
  - intros i j Hi Hj. cbn beta. rewrite HF by auto. unfold quad2. ring.
Qed.

(** ** Consistent data *)
Lemma l1_zero usable a b v : aeq a b -> same_shape a usable = true -> l1 usable a b v -> v = 0%R.
Proof.
  intros (R1 & R2 & V) S ->. apply same_shape_iff in S as [S1 S2]. rewrite (rsum2_ext _ (fun _ _ => 0%R)); [apply rsum2_all_zero; auto|].
  intros i j Hi Hj. rewrite V by (split; lia). rewrite Rminus_diag_eq, Rabs_R0 by auto. ring.
Qed.
Lemma l1_nonneg usable a b v : (forall i j, in_arr usable i j -> (0 <= at2 usable i j)%R) -> l1 usable a b v -> (0 <= v)%R.
Proof.
  intros U ->. apply rsum2_nonneg. intros i j Hi Hj. apply Rmult_le_pos; [apply U; split; auto|apply Rabs_pos].
Qed.
Lemma consistent_zero lstsq ops usable meas dmrad dm flip n m x y c v ph0 ph1 s : is_lstsq_oracle lstsq -> bool_mask usable ->
  same_shape s usable = true -> measured_phase lstsq ph0 ph1 usable meas ->
  simulated ops dm dmrad n m flip x y c s -> consistent_with ph0 ph1 usable s ->
  wavefront_misfit lstsq ops usable meas dmrad dm flip n m x y c v -> v = 0%R.
Proof.
  intros O B Sh (d & S1 & D & E) Sm (p & q & r & Cn) (s' & w & Sm' & W & L).
  unfold simulated in *. rewrite Sm in Sm'. injection Sm' as <-. unfold wavefront in W.
  pose proof E as E'. unfold remove_piston_tip_tilt in E'. apply guard_ok in E' as [Sd _]. apply same_shape_iff in Sd as [Sd1 Sd2].
  apply same_shape_iff in Sh as [Sh1 Sh2].
  destruct (ptt_plane_invariant lstsq O (amap (fun v => v * 2)%R s) d usable p q r w) as (w' & E2 & A); auto.
  - apply same_shape_iff. cbn. lia.
  - apply same_shape_iff. cbn. lia.
  - intros i j I N. destruct (Cn i j I N) as [C1 C2]. destruct (D i j) as [[k K] D2]; [destruct I; split; lia|]. cbn [amap at2].
    assert (k = 0).
    { assert (-1 < k < 1); [|lia]. pose proof PI_RGT_0. split; apply lt_IZR; nra. }
    subst k. rewrite K, C1. rewrite Rmult_0_r, Rplus_0_r. ring.
  - rewrite E in E2. injection E2 as <-. eapply l1_zero; [exact A| |exact L]. apply same_shape_iff.
    destruct A as (A1 & A2 & _). unfold remove_piston_tip_tilt in W. apply guard_ok in W as [Sw W]. apply guard_ok in W as [_ W]. injection W as <-. cbn in *. lia.
Qed.

(** ** Clocking: the surface misfit at the truth *)
Lemma clock_truth ops usable meas dmrad dm flip n m x y c0 c s0 s v0 v : (forall i j, in_arr usable i j -> (0 <= at2 usable i j)%R) ->
  simulated ops dm dmrad n m flip x y c0 s0 -> simulated ops dm dmrad n m flip x y c s ->
  (forall i j, in_arr usable i j -> at2 usable i j <> 0%R -> at2 meas i j = (2 * at2 s0 i j)%R) ->
  (rsum2 (fun i j => at2 usable i j * Rabs (at2 s i j)) (nr usable) (nc usable) <= rsum2 (fun i j => at2 usable i j * Rabs (at2 s0 i j)) (nr usable) (nc usable))%R ->
  surface_misfit ops usable meas dmrad dm flip n m x y c0 v0 -> surface_misfit ops usable meas dmrad dm flip n m x y c v -> (v0 <= v)%R.
Proof.
  intros U S0 S1 M N (s0' & E0 & ->) (s' & E1 & ->). unfold simulated in *. rewrite S0 in E0. injection E0 as <-. rewrite S1 in E1. injection E1 as <-.
  set (A := rsum2 (fun i j => at2 usable i j * Rabs (at2 s i j))%R (nr usable) (nc usable)) in *.
  set (B := rsum2 (fun i j => at2 usable i j * Rabs (at2 s0 i j))%R (nr usable) (nc usable)) in *.
  rewrite (rsum2_ext _ (fun i j => at2 usable i j * Rabs (at2 s0 i j))%R).
  2:{ intros i j Hi Hj. destruct (Req_dec (at2 usable i j) 0) as [Z0|Z0]; [rewrite Z0; ring|]. rewrite M by (auto; split; auto). f_equal. f_equal. ring. }
  fold B. assert (K : (2 * B - A <= rsum2 (fun i j => at2 usable i j * Rabs (at2 meas i j - at2 s i j)) (nr usable) (nc usable))%R); [|lra].
  apply Rle_trans with (rsum2 (fun i j => (2 * (at2 usable i j * Rabs (at2 s0 i j)) - at2 usable i j * Rabs (at2 s i j)))%R (nr usable) (nc usable)).
  - right. unfold A, B. rewrite rsum2_sub, rsum2_scal. ring.
  - apply rsum2_le. intros i j Hi Hj. destruct (Req_dec (at2 usable i j) 0) as [Z0|Z0]; [rewrite Z0; lra|]. rewrite M by (auto; split; auto).
    pose proof (U i j (conj Hi Hj)). pose proof (Rabs_triang_inv (2 * at2 s0 i j) (at2 s i j)). rewrite Rabs_mult, (Rabs_pos_eq 2) in H0 by lra. nra.
Qed.

(** ** Scale on square images *)
Lemma scale_square lstsq ops usable meas dmrad dm n x y cl sx sy v : is_lstsq_oracle lstsq -> bool_mask usable -> shape_preserving ops -> wf (d_inf dm) ->
  nr usable = n -> nc usable = n ->
  scale_misfit lstsq ops usable meas dmrad dm n n x y cl sx sy v ->
  wavefront_misfit lstsq ops usable meas dmrad (DmData (d_gain dm) (d_inf dm) (d_nact dm) (d_ppd dm) (sx * d_cx dm)%R (sy * d_cy dm)%R) false n n x y cl v.
Proof.
  intros O B Sp W N1 N2 (s & c & w & E & (R1 & R2 & V) & P & L). pose proof (dmhtoph_shape _ _ _ _ _ _ _ _ _ _ _ _ _ _ W Sp E) as [S1 S2].
  destruct (ptt_plane_invariant lstsq O c (amap (fun v => v * 2)%R s) usable 0 0 0 w) as (w' & P' & (A1 & A2 & A)).
  - apply same_shape_iff. lia.
  - apply same_shape_iff. cbn. lia.
  - exact B.
  - intros i j [Hi Hj] _. rewrite V by (split; lia). cbn [amap nr nc at2]. rewrite S1, S2. replace (i - n / 2 + n / 2) with i by ring. replace (j - n / 2 + n / 2) with j by ring.
    destruct (in_arrb _ i j) eqn:I; [unfold plane_at; ring|]. apply in_arrb_false in I. exfalso. apply I. split; cbn; lia.
  - exact P.
  - exists s, w'. split; [exact E|]. split; [exact P'|]. unfold l1 in *. rewrite L. apply rsum2_ext. intros i j Hi Hj.
    destruct (ptt_spec lstsq O c usable) as (w2 & E2 & Q1 & Q2 & _); [apply same_shape_iff; lia|exact B|]. rewrite P in E2. injection E2 as <-.
    rewrite A by (split; lia). reflexivity.
Qed.
Lemma scale_exact (D : R -> R -> Prop) F n m sx sy sx' sy' a b c p q r : 3 <= n -> m <> 0%R -> sx <> 0%R -> sy <> 0%R ->
  (forall i j, 0 <= i < n -> 0 <= j < n -> let u := ((1 - m + 2 * m * IZR j / (IZR n - 1)) * sx)%R in
     let v := ((1 - m + 2 * m * IZR i / (IZR n - 1)) * sy)%R in F u v = quad2 a b c p q r u v) ->
  scale_pass D F n false m sx sy sx' sy' -> stationary a b c p q sx' sy'.
Proof.
  intros Hn Hm Hx Hy HF (_ & fx & fy & H & -> & ->). cbn zeta in H. rewrite (proj2 (Z.eqb_neq n 1)) in H by lia.
  assert (1 <= IZR n - 1)%R by (rewrite <- minus_IZR; apply IZR_le; lia).
  apply (grid_exact _ _ _ _ _ (a * sx ^ 2) (b * sx * sy) (c * sy ^ 2) (p * sx) (q * sy) r) in H as [_ [S1 S2]].
  - split; [apply (Rmult_eq_reg_l sx); [|auto]|apply (Rmult_eq_reg_l sy); [|auto]]; lra.
  - apply (grid_unisolvent n (2 * m / (IZR n - 1)) 1 1); auto; [apply step_nz; [lia|auto]|..]; intros i Hi; unfold trial; cbn [vat]; rewrite ?minus_IZR; field; lra.
  - intros i j Hi Hj. rewrite (HF i j) by auto. unfold quad2. ring.
Qed.
