(** flatten from end to end: the change of the DM surfaces cancels the wavefront at the actuators. *)
From Coq Require Import ZArith Bool List Reals Lra Lia Psatz.
From Flocq Require Import Core.
From Verif.Base Require Import Py Arr Vec Sums Lstsq.
From Verif.Model Require Import PadCrop Math Noll Fits Fresnel Dm Conjugate.
From Verif.Spec Require Import MathSpec ZernikeSpec DmSpec FitsSpec ConjugateSpec.
From Verif.Proofs Require Import PadCropP ZernP FitsP DmP MathP DarkHoleP ConjugateP ConjugateCmdP.
Import ListNotations.
Open Scope Z_scope.

Lemma dm_surface_ext k a b r c : aeq a b -> dm_surface k a r c = dm_surface k b r c.
Proof.
  intros (A1 & A2 & A3). unfold dm_surface. rewrite A1, A2. apply rsum2_ext. intros i j Hi Hj.
  rewrite A3 by (unfold in_arr; lia). reflexivity.
Qed.
Lemma dm_surface_sum k a b a' b' r c : nr a' = nr a -> nc a' = nc a -> nr b = nr a -> nc b = nc a ->
  nr b' = nr a -> nc b' = nc a -> (forall i j, in_arr a i j -> at2 a i j + at2 b i j = at2 a' i j + at2 b' i j)%R ->
  (dm_surface k a r c + dm_surface k b r c = dm_surface k a' r c + dm_surface k b' r c)%R.
Proof.
  intros E1 E2 E3 E4 E5 E6 V. unfold dm_surface. rewrite E1, E2, E3, E4, E5, E6, <- !rsum2_add.
  apply rsum2_ext. intros i j Hi Hj. rewrite <- !Rmult_plus_distr_r, V by (unfold in_arr; lia). reflexivity.
Qed.

Section All.
Variables (ops : flatten_ops) (cmd1 cmd2 : arr R) (fcm : Z) (useFCM high : bool) (lam : R) (amp ph : arr R)
  (diam xo yo : R) (dm1 dm2 : dm_config) (p : flatten_params) (o1 o2 : arr R) (of' : Z) (coef : list R)
  (ampIn : arr R) (use : arr bool) (Zf : Z -> R -> R -> R) (k1 k2 : arr R).
Hypothesis HF : flatten ops cmd1 cmd2 fcm true useFCM high lam amp ph diam xo yo dm1 dm2 p = Ok (o1, o2, of', coef).
Hypothesis Mc1 : nr cmd1 = c_nact dm1.
Hypothesis Mc2 : nr cmd2 = c_nact dm2.
Hypothesis Wa : wf amp.
Hypothesis Wp : wf ph.
Hypothesis HN : Z.max (map_h dm1 dm2) (map_w dm1 dm2) <> 1000000.
Hypothesis HZ : is_mode_fun (diam / 2) Zf.
Hypothesis EA : pad_crop amp [map_h dm1 dm2; map_w dm1 dm2] 0%R = Ok ampIn.
Hypothesis EU : ampthresh ampIn (f_nBin p) = Ok use.
Hypothesis Hs : is_solver (co_solve (fo_conv ops)).
Hypothesis Nr : no_rotation (co_rotate (fo_conv ops)).
Hypothesis Gs : grid_spline (co_bispline (fo_conv ops)).
Hypothesis D1 : regular_dm (fo_conv ops) dm1 k1.
Hypothesis D2 : regular_dm (fo_conv ops) dm2 k2.

(** One mirror. *)
Lemma command_at dm k surf h n r c u v : regular_dm (fo_conv ops) dm k ->
  conv_surf_to_dm_cmd (fo_conv ops) surf dm = Ok h -> nr surf = n -> nc surf = n -> n mod 2 = 1 ->
  0 <= r < c_nact dm -> 0 <= c < c_nact dm -> actuator_at dm r c u v -> Z.abs u <= n / 2 -> Z.abs v <= n / 2 ->
  dm_surface k h r c = at2 surf (u + n / 2) (v + n / 2).
Proof.
  intros (R1 & R2 & R3 & R4 & R5 & R6 & R7 & R8) H S1 S2 O Hr Hc [A1 A2] Hu Hv.
  pose proof (Z.div_mod n 2 ltac:(lia)) as Q.
  rewrite (conv_sample _ _ _ _ _ Hs H R7 R3 R4 R5 R6 R1 Nr Gs r c (u + n / 2)
    ((if c_flipx dm then - v else v) + n / 2) Hr Hc).
  - f_equal. destruct (c_flipx dm); lia.
  - unfold in_arr. rewrite S1, S2. destruct (c_flipx dm); lia.
  - rewrite S1. replace (u + n / 2 - n / 2) with u by lia. exact A1.
  - rewrite S2. destruct (c_flipx dm).
    + replace (- v + n / 2 - n / 2) with (- v) by lia. rewrite opp_IZR, A2, R2 by auto. ring.
    + replace (v + n / 2 - n / 2) with v by lia. rewrite A2. ring.
Qed.

(** The heights before dead actuators are taken into account. *)
Lemma heights_at : exists h1 h2 r1 r2,
  nr h1 = c_nact dm1 /\ nc h1 = c_nact dm1 /\ nr h2 = c_nact dm2 /\ nc h2 = c_nact dm2 /\
  reassign_dead (c_nact dm1) (c_nact dm2) (c_tie dm1) (c_tie dm2) h1 h2 = Ok (r1, r2) /\
  aeq (lowered lam (c_gain dm1) cmd1 o1) r1 /\ aeq (lowered lam (c_gain dm2) cmd2 o2) r2 /\
  forall r c u v r' c', 0 <= r < c_nact dm1 -> 0 <= c < c_nact dm1 -> 0 <= r' < c_nact dm2 -> 0 <= c' < c_nact dm2 ->
    actuator_at dm1 r c u v -> actuator_at dm2 r' c' u v ->
    Z.abs u <= ceil_odd (f_arrayExtFac p * diam) / 2 -> Z.abs v <= ceil_odd (f_arrayExtFac p * diam) / 2 ->
    in_arr use (u + nr use / 2) (v + nc use / 2) -> at2 use (u + nr use / 2) (v + nc use / 2) = true ->
    (2 * dm_surface k1 h1 r c + 2 * dm_surface k2 h2 r' c' = to_remove useFCM high (f_maxNoll p) Zf coef ph xo yo u v)%R.
Proof.
  apply flatten_inv in HF as (s & h1 & h2 & r1 & r2 & E1 & -> & E2 & E3 & E4 & L & _ &
    A1 & A2 & A3 & A4 & B1 & B2 & B3 & B4 & C1 & C2 & C3 & C4 & V1 & V2 & _); auto.
  pose proof (conv_inv _ _ _ _ E2) as (_ & _ & _ & _ & _ & _ & S1 & S2 & _).
  pose proof (conv_inv _ _ _ _ E3) as (_ & _ & _ & _ & _ & _ & S3 & S4 & _).
  exists h1, h2, r1, r2. do 5 (split; [auto|]). pose proof PI_RGT_0 as P.
  split; [|split].
  - destruct D1 as (_ & _ & _ & _ & _ & _ & _ & G). split; [auto|]. split; [auto|]. intros i j I. cbn in *. rewrite V1 by (unfold in_arr in *; cbn in *; lia). field.
    repeat split; try lra. apply G. unfold in_arr in *. cbn in I. lia.
  - destruct D2 as (_ & _ & _ & _ & _ & _ & _ & G). split; [auto|]. split; [auto|]. intros i j I. cbn in *. rewrite V2 by (unfold in_arr in *; cbn in *; lia). field.
    repeat split; try lra. apply G. unfold in_arr in *. cbn in I. lia.
  - intros r c u v r' c' Hr Hc Hr' Hc' T1 T2 Hu Hv I U.
    pose proof (front_shapes _ _ _ _ _ _ _ _ _ _ _ _ _ E1 Wa Wp) as (Hh & Hw & _ & _ & F1 & F2 & F3 & F4 & _ & _ & _ & F5).
    pose proof (front_modes _ _ _ _ _ _ _ _ _ _ _ _ _ Zf E1 Wa Wp HN HZ) as (_ & _ & _ & _ & _ & _ & M).
    pose proof (front_phases _ _ _ _ _ _ _ _ _ _ _ _ _ Zf E1 Wa Wp HN HZ) as (_ & PH & PL & _).
    pose proof (front_surfaces _ _ _ _ _ _ _ _ _ _ _ _ _ Zf E1 Wa Wp HN HZ) as (Q1 & Q2 & Q3 & Q4 & QV).
    cbv zeta in QV. specialize (QV eq_refl).
    destruct (front_inv _ _ _ _ _ _ _ _ _ _ _ _ _ E1) as (ampIn' & v' & _ & X2 & X3 & _).
    rewrite EA in X2. injection X2 as X2. rewrite <- X2, EU in X3. injection X3 as X3. rewrite <- X3 in *.
    rewrite F3, F4 in U. set (n := ceil_odd (f_arrayExtFac p * diam)) in *.
    assert (On : n mod 2 = 1).
    { destruct (ceil_odd_ok (f_arrayExtFac p * diam)) as [[q Hq] _]. fold n in Hq. rewrite Hq.
      rewrite Z.add_comm, Z.mul_comm, Z_mod_plus_full. reflexivity. }
    pose proof (Z.div_mod n 2 ltac:(lia)) as Dn.
    rewrite (command_at dm1 k1 (s_surf1 s) h1 n r c u v), (command_at dm2 k2 (s_surf2 s) h2 n r' c' u v) by auto.
    assert (Hp : 0 <= u + n / 2 < n /\ 0 <= v + n / 2 < n) by lia.
    assert (Ip : 0 <= u + map_h dm1 dm2 / 2 < map_h dm1 dm2 /\ 0 <= v + map_w dm1 dm2 / 2 < map_w dm1 dm2)
      by (destruct I as [I1 I2]; rewrite F3 in I1; rewrite F4 in I2; auto).
    destruct Hp as [Hp1 Hp2]. destruct Ip as [Ip1 Ip2].
    destruct (QV (u + n / 2) (v + n / 2) (u + map_h dm1 dm2 / 2) (v + map_w dm1 dm2 / 2)) as [-> ->]; auto; try lia.
    destruct (M _ _ Ip1 Ip2) as (M1 & M2 & M3 & M4 & M5). cbv zeta in *.
    assert (Ex : px_x (map_w dm1 dm2) xo (v + map_w dm1 dm2 / 2) = (IZR v - xo)%R) by (unfold px_x; do 2 f_equal; lia).
    assert (Ey : px_x (map_h dm1 dm2) yo (u + map_h dm1 dm2 / 2) = (IZR u - yo)%R) by (unfold px_x; do 2 f_equal; lia).
    rewrite Ex, Ey in *. unfold to_remove. destruct high.
    + destruct (PH eq_refl eq_refl) as (al & _ & _ & PV). destruct (PV _ _ Ip1 Ip2) as [-> ->].
      rewrite M5, U, <- M4, F5 by auto.
      replace (u + map_h dm1 dm2 / 2 - map_h dm1 dm2 / 2) with u by lia.
      replace (v + map_w dm1 dm2 / 2 - map_w dm1 dm2 / 2) with v by lia.
      rewrite M1, M2. field.
    + destruct (PL eq_refl eq_refl _ _ Ip1 Ip2) as [-> ->]. rewrite M3. field.
Qed.

Lemma flatten_cancels : (forall i j, in_arr cmd1 i j -> ~ dead (c_tie dm1) i j /\ ~ dead (c_tie dm2) i j) ->
  forall r c r' c' u v,
   0 <= r < c_nact dm1 -> 0 <= c < c_nact dm1 -> 0 <= r' < c_nact dm2 -> 0 <= c' < c_nact dm2 ->
   actuator_at dm1 r c u v -> actuator_at dm2 r' c' u v ->
   Z.abs u <= ceil_odd (f_arrayExtFac p * diam) / 2 -> Z.abs v <= ceil_odd (f_arrayExtFac p * diam) / 2 ->
   in_arr use (u + nr use / 2) (v + nc use / 2) -> at2 use (u + nr use / 2) (v + nc use / 2) = true ->
   (2 * dm_surface k1 (lowered lam (c_gain dm1) cmd1 o1) r c + 2 * dm_surface k2 (lowered lam (c_gain dm2) cmd2 o2) r' c'
    = to_remove useFCM high (f_maxNoll p) Zf coef ph xo yo u v)%R.
Proof.
  intros ND r c r' c' u v Hr Hc Hr' Hc' T1 T2 Hu Hv I U.
  destruct heights_at as (h1 & h2 & r1 & r2 & S1 & S2 & S3 & S4 & E & L1 & L2 & V).
  rewrite <- (V r c u v r' c') by auto.
  destruct (reassign_ok _ _ _ _ _ _ _ _ S1 S2 S3 S4 E) as (N & _ & _ & _ & _ & Q1 & Q2 & Q3 & Q4 & W).
  rewrite (dm_surface_ext _ _ _ _ _ L1), (dm_surface_ext _ _ _ _ _ L2).
  assert (K : forall i j, 0 <= i < c_nact dm1 -> 0 <= j < c_nact dm1 -> at2 r1 i j = at2 h1 i j /\ at2 r2 i j = at2 h2 i j).
  { intros i j Hi Hj. apply W; [unfold in_arr; lia| |]; apply ND; destruct L1 as (X1 & X2 & _); cbn in X1, X2;
     unfold in_arr; lia. }
  rewrite (dm_surface_ext k1 r1 h1), (dm_surface_ext k2 r2 h2); [reflexivity| |]; (split; [congruence|split; [congruence|]]);
    intros i j [Hi Hj]; apply K; lia.
Qed.
Lemma flatten_cancels_shared : k1 = k2 ->
  (forall i j, in_arr cmd1 i j -> ~ (dead (c_tie dm1) i j /\ dead (c_tie dm2) i j)) ->
  forall r c u v,
   0 <= r < c_nact dm1 -> 0 <= c < c_nact dm1 -> 0 <= r < c_nact dm2 -> 0 <= c < c_nact dm2 ->
   actuator_at dm1 r c u v -> actuator_at dm2 r c u v ->
   Z.abs u <= ceil_odd (f_arrayExtFac p * diam) / 2 -> Z.abs v <= ceil_odd (f_arrayExtFac p * diam) / 2 ->
   in_arr use (u + nr use / 2) (v + nc use / 2) -> at2 use (u + nr use / 2) (v + nc use / 2) = true ->
   (2 * dm_surface k1 (lowered lam (c_gain dm1) cmd1 o1) r c + 2 * dm_surface k2 (lowered lam (c_gain dm2) cmd2 o2) r c
    = to_remove useFCM high (f_maxNoll p) Zf coef ph xo yo u v)%R.
Proof.
  intros K ND r c u v Hr Hc Hr' Hc' T1 T2 Hu Hv I U.
  destruct heights_at as (h1 & h2 & r1 & r2 & S1 & S2 & S3 & S4 & E & L1 & L2 & V).
  rewrite <- (V r c u v r c) by auto. rewrite <- K.
  destruct (reassign_ok _ _ _ _ _ _ _ _ S1 S2 S3 S4 E) as (N & _ & _ & _ & _ & Q1 & Q2 & Q3 & Q4 & W).
  rewrite (dm_surface_ext _ _ _ _ _ L1), (dm_surface_ext _ _ _ _ _ L2).
  rewrite <- !Rmult_plus_distr_l. f_equal. apply dm_surface_sum; try congruence.
  intros i j [Hi Hj]. apply W; [unfold in_arr; lia|]. apply ND. destruct L1 as (X1 & X2 & _). cbn in X1, X2.
  unfold in_arr. lia.
Qed.
End All.
