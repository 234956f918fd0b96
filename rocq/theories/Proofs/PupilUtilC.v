(** Clocking. *)
From Coq Require Import ZArith Bool List Reals Lra Lia String.
From Flocq Require Import Core.
From Verif.Base Require Import Py Arr Vec Sums Lstsq.
From Verif.Model Require Import Math Noll Fits Shapes PadCrop MaskGen PupilUtil.
From Verif.Spec Require Import FitsSpec MaskGenSpec PupilUtilSpec.
From Verif.Proofs Require Import PadCropP FitsP DarkHoleP MaskGenP MaskGenEx PupilUtilP PupilUtilN.
Import ListNotations.
Open Scope list_scope.
Open Scope Z_scope.

Lemma fill_ok f : forall n k r, fill_vec f k n = Ok r -> forall i, k <= i < k + Z.of_nat n -> f i = Ok (r i).
Proof.
  induction n as [|n IH]; intros k r H i Hi; [lia|]. cbn [fill_vec] in H.
  destruct (f k) as [v|e] eqn:E; [|discriminate]. cbn [bind] in H.
  destruct (fill_vec f (k + 1) n) as [r'|e] eqn:E'; [|discriminate]. cbn [bind] in H. injection H as <-.
  destruct (Z.eqb_spec i k) as [->|N]; auto. apply (IH (k + 1)); auto. lia.
Qed.
Lemma fill_def f : forall n k, (forall i, k <= i < k + Z.of_nat n -> exists v, f i = Ok v) -> exists r, fill_vec f k n = Ok r.
Proof.
  induction n as [|n IH]; intros k H; cbn [fill_vec]; [eauto|].
  destruct (H k ltac:(lia)) as [v ->]. destruct (IH (k + 1)) as [r ->]; [intros i Hi; apply H; lia|]. cbn [bind]. eauto.
Qed.
Lemma clock_linspace max n i : linspace (- max) max n i = clock_angle max n i.
Proof. unfold linspace, clock_angle. destruct (n =? 1); auto. unfold Rdiv. ring. Qed.
Lemma clock_symmetric max n i : 2 <= n -> clock_angle max n (n - 1 - i) = (- clock_angle max n i)%R.
Proof.
  intros Hn. unfold clock_angle. destruct (Z.eqb_spec n 1); [lia|]. rewrite !minus_IZR. field.
  rewrite <- minus_IZR. apply not_0_IZR. lia.
Qed.
Lemma count_ok n m (b : Z -> Z -> bool) (P : Z -> Z -> Prop) :
  (forall i j, 0 <= i < n -> 0 <= j < m -> b i j = true <-> P i j) -> counts n m P (count2 b n m).
Proof.
  intros H. exists (fun i j => of_bool (b i j)). split; [|reflexivity]. intros i j Hi Hj. specialize (H i j Hi Hj).
  destruct (b i j) eqn:E; cbn; split; intro Q; auto; [exfalso; apply Q|exfalso]; apply H in Q || apply H; congruence.
Qed.
Lemma counts_unique n m P c c' : counts n m P c -> counts n m P c' -> c = c'.
Proof.
  intros (f & F & ->) (g & G & ->). apply rsum2_ext. intros i j Hi Hj.
  destruct (F i j Hi Hj) as [F1 F0], (G i j Hi Hj) as [G1 G0].
  destruct (Classical_Prop.classic (P i j)) as [p|p]; [rewrite F1, G1|rewrite F0, G0]; auto.
Qed.
Lemma rmax_list d (l : list R) : (d <= fold_right Rmax d l /\ (forall x, In x l -> x <= fold_right Rmax d l) /\
  (fold_right Rmax d l = d \/ In (fold_right Rmax d l) l))%R.
Proof.
  induction l as [|a l (I0 & I1 & I2)]; cbn; [split; [lra|]; split; [tauto|auto]|].
  split; [eapply Rle_trans; [exact I0|apply Rmax_r]|]. split.
  - intros x [->|H]; [apply Rmax_l|]. eapply Rle_trans; [apply I1; auto|apply Rmax_r].
  - apply (Rmax_case a (fold_right Rmax d l) (fun u => u = d \/ a = u \/ In u l)); tauto.
Qed.

Lemma down_wf rotate spline (a : arr R) rotDeg mag xo yo out : wf a ->
  rotate_shift_downsample rotate spline a rotDeg mag xo yo 1 false = Ok out -> wf out.
Proof.
  intros W E. destruct (Classical_Prop.classic (0 < mag <= 1)%R) as [M|M].
  2:{ rewrite (down_rejects' rotate spline a rotDeg mag xo yo 1 false) in E; [discriminate|auto]. }
  set (x := (1 * IZR (Z.max (nr a) (nc a)))%R). pose proof (least_odd x) as L.
  assert (P : forall y, (0 <= y)%R -> exists h, least_odd_above y (2 * h + 1) /\ 0 <= h).
  { intros y Hy. pose proof (least_odd y) as Ly. destruct Ly as (O & G & M0). assert (0 < ceil_odd y \/ ceil_odd y <= 0) as [Q|Q] by lia.
    - destruct (odd_half _ O Q) as (h & Eh & Hh & _). exists h. rewrite <- Eh. split; [split; auto|auto].
    - exfalso. apply IZR_le in Q. assert (ceil_odd y = 0) as Z0; [|rewrite Z0 in O; destruct O; lia].
      apply eq_IZR. lra. }
  destruct (P x) as (h & Hh & h0).
  { unfold x. rewrite Rmult_1_l. apply IZR_le. destruct W. lia. }
  destruct (P (IZR (2 * h + 1) * mag + 2 + 2 * Rmax (Rabs xo) (Rabs yo))%R) as (H & HH & H0).
  { assert (0 <= IZR (2 * h + 1))%R by (apply IZR_le; lia). pose proof (Rmax_l (Rabs xo) (Rabs yo)). pose proof (Rabs_pos xo). nra. }
  assert (4 <= 2 * h + 1 \/ 2 * h + 1 < 4) as [Q|Q] by lia.
  - destruct (value_lem rotate spline a rotDeg mag xo yo 1 false h H W M ltac:(lra) Hh HH Q) as (o & _ & _ & Eo & _ & _ & _ & _ & _ & R1 & R2 & _).
    rewrite Eo in E. injection E as <-. split; lia.
  - rewrite (down_err rotate spline a rotDeg mag xo yo 1 false W M ltac:(lra) h Hh Q) in E. discriminate.
Qed.

Section Clock.
Variable lstsq : lstsq1_fun.
Hypothesis oracle : is_lstsq_oracle lstsq.
Lemma fit_ok max n count v : 0 < n -> fit_clock lstsq (Vec n (fun i => linspace (- max) max n i)) (Vec n count) = Ok v ->
  clock_estimate max n count v.
Proof.
  intros Hn H. unfold fit_clock in H. cbn [vlen vat] in H. apply guard_ok in H as [_ H].
  set (M := fold_right Rmax (count 0) (map count (zrange n))) in *.
  pose proof (rmax_list (count 0) (map count (zrange n))) as (M0 & M1 & M2). fold M in M0, M1, M2.
  set (p := lstsq _ _ _ _) in *. exists M, (p 0), (p 1), (p 2). split; [|split; [|split]].
  - destruct M2 as [->|I]; [exists 0; split; [lia|auto]|]. apply in_map_iff in I as (i & E & I).
    apply in_zrange in I. exists i. split; auto.
  - intros i Hi. apply M1. apply in_map. apply in_zrange. auto.
  - replace (Vec n (clock_angle max n)) with (Vec n (fun i => linspace (- max) max n i)).
    + apply (lstsq_parabola (Vec n (fun i => linspace (- max) max n i)) (squared_deficit M n count) p). apply oracle.
    + f_equal. apply FunctionalExtensionality.functional_extensionality. intro i. apply clock_linspace.
  - destruct (Req_EM_T (p 0) 0); injection H as <-; split; intro; auto; contradiction.
Qed.
Lemma fit_def max n count : 2 <= n -> max <> 0%R -> exists v, fit_clock lstsq (Vec n (fun i => linspace (- max) max n i)) (Vec n count) = Ok v.
Proof.
  intros Hn Hm. unfold fit_clock. cbn [vlen vat].
  replace (existsb _ _) with true.
  - cbn [guard bind]. destruct (Req_EM_T _ 0); eauto.
  - symmetry. apply existsb_exists. exists 0. split; [apply in_zrange; lia|]. unfold linspace.
    destruct (n =? 1); rewrite ?Rmult_0_l, ?Rplus_0_r; destruct (Req_EM_T (- max) 0); auto; lra.
Qed.
Lemma clocking_ok rotate spline amp diamBeam maskRef diamHigh x y max n q delta useAmpthresh v : wf maskRef ->
  compute_clocking lstsq rotate spline amp diamBeam maskRef diamHigh x y max n q delta useAmpthresh = Ok v ->
  exists m count, ampthresh (amap (fun u => u ^ 2)%R amp) 21 = Ok m /\
    (forall i, 0 <= i < n -> overlap rotate spline amp diamBeam maskRef diamHigh x y q delta useAmpthresh m (clock_angle max n i) (count i)) /\
    clock_estimate max n count v.
Proof.
  intros W H. unfold compute_clocking in H. do 5 (apply guard_ok in H as [? H]). cbv zeta in H.
  assert (Hn : 0 < n) by (apply Z.ltb_lt; auto).
  apply bind_ok in H as (m & Em & H). apply bind_ok in H as (count & Ec & H). exists m, count. split; auto. split; [|apply fit_ok; auto].
  pose proof (ampthresh_ok _ _ _ Em) as (lo & hi & Hg & kv & (M1 & _) & _ & _ & _ & _ & _ & _ & Mr & Mc & _).
  destruct M1 as (i0 & j0 & I0 & _). cbn [amap nr nc] in Mr, Mc.
  assert (Pr : 0 < nr amp) by (destruct I0 as [I1 I2]; cbn in I1, I2; lia).
  assert (Pc : 0 < nc amp) by (destruct I0 as [I1 I2]; cbn in I1, I2; lia).
  assert (RR : forall a p, rotated_ref rotate spline amp maskRef (diamBeam / diamHigh) x y a = Ok p -> exists p0,
    rotate_shift_downsample rotate spline maskRef a (diamBeam / diamHigh) x y 1 false = Ok p0 /\ recentred p0 (nr amp) (nc amp) p).
  { intros a p E. unfold rotated_ref in E. apply bind_ok in E as (p0 & E0 & E). exists p0. split; auto.
    pose proof (down_wf _ _ _ _ _ _ _ _ W E0) as W0. destruct (pad_crop_ok p0 (nr amp) (nc amp) 0%R W0 Pr Pc) as (o & Eo & R1 & R2 & V).
    rewrite Eo in E. injection E as <-. split; auto. split; auto. intros i j [Hi Hj]. apply V; lia. }
  intros i Hi. rewrite <- clock_linspace. destruct useAmpthresh; cbn [negb] in Ec.
  - pose proof (fill_ok _ _ _ _ Ec i ltac:(lia)) as F. cbv beta in F. unfold overlap_bool in F.
    apply bind_ok in F as (p & Ep & F). apply bind_ok in F as (b & Eb & F). injection F as <-.
    apply RR in Ep as (p0 & Ep0 & Rp). exists p0, p, b. split; auto. split; auto. split; auto.
    apply count_ok. intros a c Ha Hc. apply eqb_true_iff.
  - apply bind_ok in Ec as (fM & EM & Ec).
    pose proof (fill_ok _ _ _ _ Ec i ltac:(lia)) as F. cbv beta in F. unfold overlap_norm in F.
    apply bind_ok in F as (p & Ep & F). apply bind_ok in F as (b & Eb & F). apply bind_ok in F as (fR & ER & F). injection F as <-.
    apply RR in Ep as (p0 & Ep0 & Rp). exists p0, p, b. split; auto. split; auto. split; auto.
    exists fM, fR. apply norm_ok in EM, ER. split; [apply EM|]. split; [apply ER|].
    apply count_ok. intros a c Ha Hc. destruct (Req_EM_T fM 0); [split; [discriminate|tauto]|].
    destruct (Req_EM_T fR 0); [split; [discriminate|tauto]|]. rewrite Rltb_iff. tauto.
Qed.
Lemma clocking_rejects rotate spline amp diamBeam maskRef diamHigh x y max n q delta useAmpthresh :
  (diamBeam <= 0)%R \/ (diamHigh <= 0)%R \/ n <= 0 \/ (q < 0)%R \/ (delta < 0)%R ->
  compute_clocking lstsq rotate spline amp diamBeam maskRef diamHigh x y max n q delta useAmpthresh = Err TypeError.
Proof.
  intros H. unfold compute_clocking.
  destruct (Rltb 0 diamBeam) eqn:E1; [|auto]. destruct (Rltb 0 diamHigh) eqn:E2; [|auto]. destruct (Z.ltb_spec 0 n); [|auto].
  destruct (Rleb 0 q) eqn:E3; [|auto]. destruct (Rleb 0 delta) eqn:E4; [|auto]. exfalso.
  apply Rltb_iff in E1, E2. apply Rleb_iff in E3, E4. destruct H as [?|[?|[?|[?|?]]]]; lra || lia.
Qed.
End Clock.

(** ** What the fit makes of the counts *)
Lemma angles_distinct max n : 3 <= n -> max <> 0%R -> three_distinct (Vec n (clock_angle max n)).
Proof.
  intros Hn Hm. exists 0, 1, 2. cbn [vlen vat]. do 3 (split; [lia|]).
  assert (N : (IZR n - 1 <> 0)%R) by (rewrite <- minus_IZR; apply not_0_IZR; lia).
  unfold clock_angle. destruct (Z.eqb_spec n 1); [lia|].
  assert (D : (2 * max / (IZR n - 1) <> 0)%R).
  { unfold Rdiv. apply Rmult_integral_contrapositive_currified; [lra|]. apply Rinv_neq_0_compat; auto. }
  repeat split; intro E; apply D; unfold Rdiv in *; lra.
Qed.
Lemma estimate_unique max n count v v' : 3 <= n -> max <> 0%R -> clock_estimate max n count v -> clock_estimate max n count v' -> v = v'.
Proof.
  intros Hn Hm (M & p2 & p1 & p0 & (i & Hi & Ei) & Mx & B & Z0 & Z1) (M' & q2 & q1 & q0 & (i' & Hi' & Ei') & Mx' & B' & Y0 & Y1).
  assert (M = M') as <-.
  { pose proof (Mx i' Hi'). pose proof (Mx' i Hi). lra. }
  destruct (best_parabola_unique _ _ _ _ _ _ _ _ (angles_distinct max n Hn Hm) B B') as (<- & <- & _).
  destruct (Req_EM_T p2 0) as [E|E]; [rewrite Z0, Y0|rewrite Z1, Y1]; auto.
Qed.
Lemma estimate_cone max n count v k K : 3 <= n -> max <> 0%R -> 0 <= k < n -> (0 < K)%R ->
  (forall i, 0 <= i < n -> count i = (count k - K * Rabs (clock_angle max n i - clock_angle max n k))%R) ->
  clock_estimate max n count v -> v = clock_angle max n k.
Proof.
  intros Hn Hm Hk HK Hc (M & p2 & p1 & p0 & (i & Hi & Ei) & Mx & B & Z0 & Z1).
  assert (M = count k).
  { pose proof (Mx k Hk). rewrite <- Ei, (Hc i Hi) in *. pose proof (Rabs_pos (clock_angle max n i - clock_angle max n k)). nra. }
  rewrite H in B. set (t := clock_angle max n k) in *.
  assert (B' : best_parabola (Vec n (clock_angle max n)) (squared_deficit (count k) n count) (K ^ 2) (- 2 * K ^ 2 * t) (K ^ 2 * t ^ 2)).
  { intros q2 q1 q0. unfold sq_err at 1. rewrite rsum_all_zero.
    - unfold sq_err. apply rsum_nonneg. intros j Hj. apply pow2_ge_0.
    - cbn [vlen squared_deficit vat]. intros j Hj. rewrite (Hc j Hj).
      replace (count k - K * Rabs (clock_angle max n j - t) - count k)%R with (- (K * Rabs (clock_angle max n j - t)))%R by ring.
      replace ((- (K * Rabs (clock_angle max n j - t))) ^ 2)%R with (K ^ 2 * (Rabs (clock_angle max n j - t)) ^ 2)%R by ring.
      rewrite pow2_abs. ring. }
  destruct (best_parabola_unique _ _ _ _ _ _ _ _ (angles_distinct max n Hn Hm) B B') as (E2 & E1 & _).
  assert (K ^ 2 <> 0)%R by (apply pow_nonzero; lra).
  rewrite Z1 by (rewrite E2; auto). rewrite E2, E1. field. lra.
Qed.
Lemma estimate_symmetric max n count v : 3 <= n -> max <> 0%R ->
  (forall i, 0 <= i < n -> count (n - 1 - i) = count i) -> clock_estimate max n count v -> v = 0%R.
Proof.
  intros Hn Hm Hs (M & p2 & p1 & p0 & _ & _ & B & Z0 & Z1).
  assert (B' : best_parabola (Vec n (clock_angle max n)) (squared_deficit M n count) p2 (- p1) p0).
  { intros q2 q1 q0. specialize (B q2 (- q1)%R q0). 
    assert (F : forall a b c, sq_err (Vec n (clock_angle max n)) (squared_deficit M n count) a b c =
                              sq_err (Vec n (clock_angle max n)) (squared_deficit M n count) a (- b) c).
    { intros a b c. unfold sq_err. cbn [vlen vat squared_deficit]. rewrite <- rsum_rev. apply rsum_ext. intros i Hi.
      rewrite Hs by auto. rewrite clock_symmetric by lia. f_equal. ring. }
    rewrite <- (F p2 p1 p0). eapply Rle_trans; [exact B|]. rewrite <- F. lra. }
  destruct (best_parabola_unique _ _ _ _ _ _ _ _ (angles_distinct max n Hn Hm) B B') as (_ & E & _).
  destruct (Req_EM_T p2 0) as [Q|Q]; [auto|]. rewrite Z1 by auto. replace p1 with 0%R by lra. field. auto.
Qed.
