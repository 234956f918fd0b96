(** Infinite (saturated) pixels and the quadrant balance. *)
From Coq Require Import ZArith Reals Bool List Permutation Lia Lra Psatz.
From Flocq Require Import Core BinarySingleNaN.
From Verif.Base Require Import Py Arr Sums F64 Lstsq.
From Verif.Model Require Import Fits ShapesF BrightF.
From Verif.Spec Require Import FitsSpec BrightFSpec DarkHoleFSpec.
From Verif.Proofs Require Import F64P F64N ShapesFA ShapesFP DarkHoleFP FitsP QuadNumP BrightFP BrightFQ.
Import ListNotations.
Local Open Scope R_scope.
Local Notation B := (bpow radix2).

Lemma pos_or_inf_add (x y : f64) : (x = finf \/ is_finite x = true /\ 0 <= fval x) -> (y = finf \/ is_finite y = true /\ 0 <= fval y) ->
  fadd x y = finf \/ is_finite (fadd x y) = true /\ 0 <= fval (fadd x y).
Proof.
  intros [->|[Fx Px]] [->|[Fy Py]].
  - left. reflexivity.
  - left. destruct y; try discriminate Fy; reflexivity.
  - left. destruct x; try discriminate Fx; reflexivity.
  - destruct (Rlt_or_le (Rabs (rnd64 (fval x + fval y))) (B 1024)) as [H|H].
    + right. destruct (fadd_spec x y Fx Fy H) as [V F]. split; auto. rewrite V. apply rnd_nonneg. lra.
    + left. pose proof (Bplus_correct prec emax Hprec Hmax mode_NE x y Fx Fy) as C.
      change (round radix2 (SpecFloat.fexp prec emax) (round_mode mode_NE) (B2R x + B2R y)) with (rnd64 (fval x + fval y)) in C.
      rewrite Rlt_bool_false in C by exact H. destruct C as [C Sg].
      assert (Sx : Bsign x = false).
      { destruct (Bsign x) eqn:E; auto. exfalso.
        assert (x0 : fval x <= 0) by (destruct x as [s|s| |s m e ?]; cbn in E |- *; try lra; subst s; apply F2R_le_0; cbn; lia).
        assert (y0 : fval y <= 0) by (symmetry in Sg; destruct y as [s|s| |s m e ?]; cbn in Sg |- *; try lra; subst s; apply F2R_le_0; cbn; lia).
        replace (fval x + fval y) with 0 in H by lra. rewrite rnd_0, Rabs_R0 in H. pose proof (bpow_gt_0 radix2 1024). lra. }
      rewrite Sx in C. unfold fadd. destruct (Bplus mode_NE x y); cbn in C; try discriminate C. injection C as ->. reflexivity.
Qed.
Lemma added_pos l s : added_up l s -> (forall x, In x l -> x = finf \/ is_finite x = true /\ 0 <= fval x) -> s = finf \/ is_finite s = true /\ 0 <= fval s.
Proof.
  induction 1 as [|x|l m s t A IHA A' IHB|l m s Q A IH]; intros H.
  - right. split; [reflexivity|cbn; lra].
  - apply H. left. reflexivity.
  - apply pos_or_inf_add; [apply IHA|apply IHB]; intros x I; apply H; apply in_app_iff; auto.
  - apply IH. intros x I. apply H. apply Permutation_in with l; auto.
Qed.
Lemma added_zeros l s : added_up l s -> (forall x, In x l -> is_finite x = true /\ fval x = 0) -> is_finite s = true /\ fval s = 0.
Proof.
  induction 1 as [|x|l m s t A IHA A' IHB|l m s Q A IH]; intros H.
  - split; reflexivity.
  - apply H. left. reflexivity.
  - destruct IHA as [F V]; [intros x I; apply H, in_app_iff; auto|]. destruct IHB as [F' V']; [intros x I; apply H, in_app_iff; auto|].
    destruct (fadd_spec s t F F') as [V2 F2]; [rewrite V, V', Rplus_0_r, rnd_0, Rabs_R0; apply bpow_gt_0|].
    rewrite V, V', Rplus_0_r, rnd_0 in V2. auto.
  - apply IH. intros x I. apply H. apply Permutation_in with l; auto.
Qed.
Lemma fdiv_inf (x : f64) : is_finite x = true -> is_finite (fdiv x finf) = true /\ fval (fdiv x finf) = 0.
Proof. destruct x as [s| | |s m e ?]; intros H; try discriminate H; split; reflexivity. Qed.

Section Sat.
Variables (sm : list f64 -> f64) (a : arr f64) (x0 y0 t : Z) (r : f64) (i0 j0 : Z).
Hypothesis (Hs : sums_up sm) (Gs : grid_size t (nr a) (nc a)) (Gr : grid_length t r) (R0 : 0 <= fval r).
Hypothesis (Hx : (0 <= x0 < nr a)%Z) (Hy : (0 <= y0 < nc a)%Z) (I0 : in_arr a i0 j0).
Let disc_true i j : in_arr a i j ->
  (fle (rho_f (from_origin_f (nc a) x0 j) (from_origin_f (nr a) y0 i)) r = true <-> in_disc x0 y0 (fval r) i j).
Proof.
  intros [Hi Hj]. destruct Gs as (Ht & Hn & Hn' & Hm & Hm'). pose proof (Z.pow_pos_nonneg 2 t ltac:(lia) ltac:(lia)) as Pt.
  apply (disc_test t (nr a) (nc a)); auto; nia.
Qed.
Let opened : flt r fzero = false.
Proof. destruct Gr as [Fr _]. rewrite flt_val by (auto; reflexivity). apply Rlt_bool_false; exact R0. Qed.
(** Infinite pixels, all outside the disc. *)
Lemma quad_inf_outside : (forall i j, in_arr a i j -> at2 a i j = finf \/ is_finite (at2 a i j) = true /\ 0 <= fval (at2 a i j)) ->
  at2 a i0 j0 = finf -> (forall i j, in_arr a i j -> at2 a i j = finf -> ~ in_disc x0 y0 (fval r) i j) ->
  exists bx by_, quadrant_energy_balance_f sm a x0 y0 r = Ok (bx, by_) /\ near bx 0 0 /\ near by_ 0 0.
Proof.
  intros P E0 Out. unfold quadrant_energy_balance_f. rewrite opened. cbn [negb guard bind].
  rewrite (proj2 (Z.leb_le 0 x0)), (proj2 (Z.leb_le 0 y0)), (proj2 (Z.ltb_lt x0 _)), (proj2 (Z.ltb_lt y0 _)) by lia. cbn [guard bind].
  set (T := sm (map (fun p => at2 a (fst p) (snd p)) (indices (nr a) (nc a)))).
  assert (In' : forall p, In p (indices (nr a) (nc a)) -> in_arr a (fst p) (snd p)) by (intros [i j] I; apply in_indices in I; exact I).
  assert (ET : T = finf).
  { destruct (added_pos _ T (Hs _)) as [E|[F _]]; auto.
    - intros x I. apply in_map_iff in I as (p & <- & I). apply P, In', I.
    - exfalso. assert (N : is_finite T = false); [|congruence].
      apply (added_nonfin _ _ (at2 a i0 j0) (Hs _)); [|rewrite E0; reflexivity]. apply in_map_iff. exists (i0, j0). split; auto. apply in_pts; auto. }
  assert (C : forall sx sy : f64 -> bool,
    let q := sm (map (fun p => fdiv (at2 a (fst p) (snd p)) T) (filter (fun p => sx (from_origin_f (nc a) x0 (snd p)) && sy (from_origin_f (nr a) y0 (fst p)) &&
      fle (rho_f (from_origin_f (nc a) x0 (snd p)) (from_origin_f (nr a) y0 (fst p))) r) (indices (nr a) (nc a)))) in
    is_finite q = true /\ fval q = 0).
  { intros sx sy. cbv zeta. apply (added_zeros _ _ (Hs _)). intros x I. apply in_map_iff in I as (p & <- & I). apply filter_In in I as [I D].
    apply andb_true_iff in D as [_ D]. pose proof (In' p I) as Ia. apply disc_true in D; auto. rewrite ET. apply fdiv_inf.
    destruct (P _ _ Ia) as [E|[F _]]; auto. destruct (Out _ _ Ia E D). }
  do 2 eexists. split; [reflexivity|].
  assert (G : forall x y, is_finite x = true /\ fval x = 0 -> is_finite y = true /\ fval y = 0 -> (is_finite (fadd x y) = true /\ fval (fadd x y) = 0) /\
    (is_finite (fsub x y) = true /\ fval (fsub x y) = 0)).
  { intros x y [Fx Vx] [Fy Vy].
    assert (B0 : Rabs (rnd64 0) < B 1024) by (rewrite rnd_0, Rabs_R0; apply bpow_gt_0).
    destruct (fadd_spec x y Fx Fy) as [A1 A2]; [rewrite Vx, Vy, Rplus_0_r; exact B0|].
    destruct (fsub_spec x y Fx Fy) as [A3 A4]; [rewrite Vx, Vy, Rminus_0_r; exact B0|].
    rewrite Vx, Vy, Rplus_0_r, rnd_0 in A1. rewrite Vx, Vy, Rminus_0_r, rnd_0 in A3. auto. }
  assert (N : forall x, is_finite x = true /\ fval x = 0 -> near x 0 0) by (intros x [F V]; split; auto; rewrite V, Rminus_0_r, Rabs_R0; lra).
  pose proof (C (fun v => fle fzero v) (fun v => fle fzero v)) as C1. pose proof (C (fun v => fle v fzero) (fun v => fle fzero v)) as C2.
  pose proof (C (fun v => fle fzero v) (fun v => fle v fzero)) as C3. pose proof (C (fun v => fle v fzero) (fun v => fle v fzero)) as C4.
  cbv zeta in C1, C2, C3, C4.
  split; apply N, G; apply G; auto.
Qed.
(** An infinite pixel inside the disc. *)
Lemma quad_inf_inside : is_finite (at2 a i0 j0) = false -> in_disc x0 y0 (fval r) i0 j0 ->
  quadrant_energy_balance_f sm a x0 y0 r = Ok (fnan, fnan).
Proof.
  intros E0 Ins. unfold quadrant_energy_balance_f. rewrite opened. cbn [negb guard bind].
  rewrite (proj2 (Z.leb_le 0 x0)), (proj2 (Z.leb_le 0 y0)), (proj2 (Z.ltb_lt x0 _)), (proj2 (Z.ltb_lt y0 _)) by lia. cbn [guard bind].
  set (T := sm (map (fun p => at2 a (fst p) (snd p)) (indices (nr a) (nc a)))).
  assert (NT : is_finite T = false).
  { apply (added_nonfin _ _ (at2 a i0 j0) (Hs _)); auto. apply in_map_iff. exists (i0, j0). split; auto. apply in_pts; auto. }
  assert (C : forall sx sy : f64 -> bool, sx (from_origin_f (nc a) x0 j0) = true -> sy (from_origin_f (nr a) y0 i0) = true ->
    sm (map (fun p => fdiv (at2 a (fst p) (snd p)) T) (filter (fun p => sx (from_origin_f (nc a) x0 (snd p)) && sy (from_origin_f (nr a) y0 (fst p)) &&
      fle (rho_f (from_origin_f (nc a) x0 (snd p)) (from_origin_f (nr a) y0 (fst p))) r) (indices (nr a) (nc a)))) = fnan).
  { intros sx sy Ex Ey. apply (added_nan _ _ (Hs _)). apply in_map_iff. exists (i0, j0). split; [apply fdiv_nonfin; auto|].
    apply filter_In. split; [apply in_pts; auto|]. cbn [fst snd]. rewrite Ex, Ey. apply disc_true; auto. }
  destruct Gs as (Ht & Hn & Hn' & Hm & Hm'). pose proof (Z.pow_pos_nonneg 2 t ltac:(lia) ltac:(lia)) as Pt.
  destruct (from_origin_val (nc a) x0 j0 (proj2 I0) ltac:(lia) ltac:(nia) ltac:(nia)) as [_ [Fx _]].
  destruct (from_origin_val (nr a) y0 i0 (proj1 I0) ltac:(lia) ltac:(nia) ltac:(nia)) as [_ [Fy _]].
  assert (D : forall v, is_finite v = true -> fle fzero v = true \/ fle v fzero = true).
  { intros v F. rewrite !fle_val by (auto; reflexivity). change (fval fzero) with 0.
    destruct (Rle_or_lt 0 (fval v)); [left|right]; apply Rle_bool_true; lra. }
  destruct (D _ Fx) as [Dx|Dx], (D _ Fy) as [Dy|Dy].
  - rewrite (C (fun v => fle fzero v) (fun v => fle fzero v)) by auto. rewrite ?fadd_nan_l, ?fadd_nan_r, !fsub_nan_lr by auto. reflexivity.
  - rewrite (C (fun v => fle fzero v) (fun v => fle v fzero)) by auto. rewrite ?fadd_nan_l, ?fadd_nan_r, !fsub_nan_lr by auto. reflexivity.
  - rewrite (C (fun v => fle v fzero) (fun v => fle fzero v)) by auto. rewrite ?fadd_nan_l, ?fadd_nan_r, !fsub_nan_lr by auto. reflexivity.
  - rewrite (C (fun v => fle v fzero) (fun v => fle v fzero)) by auto. rewrite ?fadd_nan_l, ?fadd_nan_r, !fsub_nan_lr by auto. reflexivity.
Qed.
End Sat.
