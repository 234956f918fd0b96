(** Light in the regions of interest, in double precision. *)
From Coq Require Import ZArith Reals Bool List Permutation Lia Lra.
From Flocq Require Import Core BinarySingleNaN.
From Verif.Base Require Import Py Arr Sums F64 Lstsq.
From Verif.Model Require Import ShapesF FocalFitF.
From Verif.Spec Require Import BrightFSpec FocalFitFSpec.
From Verif.Proofs Require Import F64P F64N ShapesFP ShapesFA BrightFP BrightFQ BrightFR.
Import ListNotations.
Local Open Scope R_scope.
Local Notation B := (bpow radix2).

(** ** The mask *)
Lemma mask_pixel c ns : (1 <= ns <= 2 ^ 26)%Z -> (0 <= c <= ns * ns)%Z ->
  let v := fdiv (fofZ c) (fofZ (ns * ns)) in is_finite v = true /\ (fval v = 0 \/ B (-52) <= fval v <= 1).
Proof.
  intros Hn Hc. assert (N2 : (1 <= ns * ns <= 2 ^ 52)%Z) by nia. destruct (fofZ_spec c ltac:(lia)) as [Vc Fc].
  destruct (fdiv_int_within 52 (fofZ c) (ns * ns) ltac:(lia)) as [V W]; [split; auto; rewrite Vc, Rabs_right by (apply Rle_ge, IZR_le; lia)|lia|].
  { rewrite <- (IZR_Zpower radix2) by lia. apply IZR_le. cbn [radix_val radix2]. lia. }
  cbv zeta. split; [apply W|]. rewrite V, Vc. assert (P : 0 < IZR (ns * ns)) by (apply IZR_lt; lia).
  destruct (Z.eq_dec c 0) as [->|Nz]; [left; unfold Rdiv; rewrite Rmult_0_l; apply rnd_0|right]. split.
  - assert (Fm : fmt64 (B (-52))) by (apply generic_format_bpow; vm_compute; discriminate). rewrite <- (rnd_id _ Fm). apply rnd_mono.
    apply Rmult_le_reg_r with (IZR (ns * ns)); auto. unfold Rdiv. rewrite Rmult_assoc, Rinv_l, Rmult_1_r by lra.
    apply Rle_trans with 1; [|apply IZR_le; lia]. apply Rle_trans with (B (-52) * B 52); [apply Rmult_le_compat_l; [apply bpow_ge_0|]|rewrite <- bpow_plus; right; reflexivity].
    rewrite <- (IZR_Zpower radix2) by lia. apply IZR_le. cbn [radix_val radix2]. lia.
  - rewrite <- (rnd_IZR 1) by lia. apply rnd_mono. apply Rmult_le_reg_r with (IZR (ns * ns)); auto.
    unfold Rdiv. rewrite Rmult_assoc, Rinv_l, Rmult_1_r, Rmult_1_l by lra. apply IZR_le. lia.
Qed.
Lemma mask_ok nx ny r xo yo ns m : (ns <= 2 ^ 26)%Z -> circle_f nx ny r xo yo ns false = Ok m ->
  nr m = ny /\ nc m = nx /\ (0 < ny)%Z /\ (1 < nx)%Z /\
  forall i j, is_finite (at2 m i j) = true /\ (fval (at2 m i j) = 0 \/ B (-52) <= fval (at2 m i j) <= 1).
Proof.
  intros Hn H. unfold circle_f in H. apply guard_ok in H as [H1 H]. apply guard_ok in H as [H2 H]. apply guard_ok in H as [H3 H].
  apply guard_ok in H as [H4 H]. apply guard_ok in H as [H5 H]. apply Z.ltb_lt in H1, H2, H4, H5. cbv zeta in H.
  assert (E : forall (x y : arr f64), Ok x = Ok y -> x = y) by (intros x y K; injection K; auto). apply E in H. subst m. clear E.
  cbn [nr nc at2]. repeat (split; [auto; lia|]). intros i j.
  destruct (flt _ _); [split; [reflexivity|left; reflexivity]|]. destruct (flt _ _).
  - destruct (fofZ_spec 1 ltac:(lia)) as [V F]. split; auto. right. rewrite V. split; [apply Rlt_le; apply Rlt_le_trans with (B 0); [apply bpow_lt; lia|cbn; lra]|lra].
  - apply mask_pixel; [lia|]. apply (zcount_range (fun p q => fle (rho_f (fadd (xUp_f ns q) (axis_f nx xo j)) (fadd (xUp_f ns p) (axis_f ny yo i))) r)). lia.
Qed.

(** ** Bad pixels *)
Lemma light_nan np_sum m a i j : sums_up np_sum -> in_arr a i j -> fisnan (at2 a i j) = true -> light np_sum m a = fnan.
Proof.
  intros Hs I N. apply nan_eq in N. unfold light. apply added_nan with (1 := Hs _). apply in_map_iff. exists (i, j). cbn [fst snd].
  split; [rewrite N; apply fmul_nan_r|apply in_pts, I].
Qed.
(** nan or plus infinity *)
Definition high (x : f64) : Prop := x = fnan \/ x = finf.
Lemma high_add_l x y : high x -> high (fadd x y).
Proof. intros [->| ->]; [left; apply fadd_nan_l|]. destruct y as [s|[]| |s mm e ?]; try (right; reflexivity); left; reflexivity. Qed.
Lemma high_add_r x y : high y -> high (fadd x y).
Proof. rewrite fadd_comm. apply high_add_l. Qed.
Lemma added_high l s x : added_up l s -> In x l -> high x -> high s.
Proof.
  intros A. revert x. induction A as [|x|l m s t A IHA A' IHB|l m s Q A IH]; intros y I F.
  - destruct I.
  - destruct I as [->|[]]. exact F.
  - apply in_app_iff in I as [I|I]; [apply high_add_l, (IHA y)|apply high_add_r, (IHB y)]; auto.
  - apply (IH y); auto. apply Permutation_in with m; auto using Permutation_sym.
Qed.
Lemma high_mul m : is_finite m = true -> (fval m = 0 \/ B (-52) <= fval m <= 1) -> high (fmul m finf).
Proof.
  intros F H. destruct m as [s|s| |s mm e Hb]; try discriminate F; [left; reflexivity|]. destruct s; [|right; reflexivity].
  exfalso. assert (L : fval (B754_finite true mm e Hb) < 0) by (apply F2R_lt_0; reflexivity). pose proof (bpow_gt_0 radix2 (-52)). lra.
Qed.
Lemma light_high np_sum m a i j : sums_up np_sum -> in_arr a i j -> at2 a i j = finf ->
  (forall i j, is_finite (at2 m i j) = true /\ (fval (at2 m i j) = 0 \/ B (-52) <= fval (at2 m i j) <= 1)) -> high (light np_sum m a).
Proof.
  intros Hs I E Hm. unfold light. apply added_high with (1 := Hs _) (x := fmul (at2 m i j) finf).
  - apply in_map_iff. exists (i, j). cbn [fst snd]. split; [rewrite E; reflexivity|apply in_pts, I].
  - apply high_mul; apply Hm.
Qed.
Lemma floor_high s : high s -> high (if fle s fzero then feps_f else s).
Proof. intros [->| ->]; [left|right]; reflexivity. Qed.
Lemma high_nonfin s : high s -> is_finite s = false. Proof. intros [->| ->]; reflexivity. Qed.
Lemma high_ratio s s' : high s -> high s' -> fdiv s s' = fnan.
Proof. intros H H'. apply fdiv_nonfin; apply high_nonfin; auto. Qed.
Lemma fmul_nan_l x : fmul fnan x = fnan. Proof. destruct x; reflexivity. Qed.
Lemma fsub_nan_l x : fsub fnan x = fnan. Proof. destruct x; reflexivity. Qed.
Lemma quad_nan_ratio c1 c2 : offset_quadratic_f c1 c2 fnan = Ok fnan.
Proof.
  unfold offset_quadratic_f, positive_f. change (fle fnan fzero) with false. cbn [negb guard bind]. unfold folded_f.
  change (flt fnan (fofZ 1)) with false. cbn [fst snd]. rewrite (fsub_add (fofZ 1) fnan). change (fopp fnan) with fnan.
  rewrite fadd_nan_r, fmul_nan_r, fsub_add. change (fopp fnan) with fnan. rewrite fadd_nan_r. change (fsqrt fnan) with fnan.
  rewrite fadd_nan_r, fdiv_nan_l, fmul_nan_r. reflexivity.
Qed.
Lemma lin_nan_ratio c1 : offset_linear_f c1 fnan = Ok fnan.
Proof.
  unfold offset_linear_f, positive_f. change (fle fnan fzero) with false. cbn [negb guard bind]. unfold folded_f.
  change (flt fnan (fofZ 1)) with false. cbn [fst snd]. rewrite fsub_nan_l, fmul_nan_r, fdiv_nan_l. reflexivity.
Qed.
Lemma bound_nan m out : bound_value_f fnan m = Ok out -> out = fnan.
Proof.
  unfold bound_value_f. intros H. apply guard_ok in H as [_ H].
  assert (E : forall x, flt x fnan = false) by (intros x; destruct x as [| | |[]]; reflexivity).
  rewrite E in H. change (flt fnan (fopp m)) with false in H. injection H; auto.
Qed.
