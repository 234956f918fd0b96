(** Examples for the focal-mask measurements in double precision. *)
From Coq Require Import ZArith Reals Bool List Permutation Lia Lra.
From Flocq Require Import Core BinarySingleNaN.
From Verif.Base Require Import Py Arr Sums F64.
From Verif.Model Require Import ShapesF FocalFitF.
From Verif.Spec Require Import BrightFSpec FocalFitFSpec.
From Verif.Proofs Require Import F64P FocalFitFQ FocalFitFT PlateSolvEx.
Import ListNotations.
Local Open Scope R_scope.
Local Notation B := (bpow radix2).

(** Adding from left to right. *)
Definition sum_left (l : list f64) : f64 := fold_left fadd l fzero.
Fixpoint left_plan (n : nat) : plan := match n with O => Nothing | S k => Plus (left_plan k) (Term k) end.
Lemma left_plan_more n l m : (n <= length l)%nat -> carry_out (left_plan n) (l ++ m) = carry_out (left_plan n) l.
Proof. induction n as [|n IH]; intros H; [reflexivity|]. cbn [left_plan carry_out]. rewrite IH, app_nth1 by lia. reflexivity. Qed.
Lemma sum_left_ok : sums_up sum_left /\ by_plan sum_left.
Proof.
  split.
  - intros l. induction l as [|x l IH] using rev_ind; [constructor|]. unfold sum_left in *. rewrite fold_left_app. cbn [fold_left].
    constructor; [exact IH|constructor].
  - exists left_plan. intros l. induction l as [|x l IH] using rev_ind; [reflexivity|]. unfold sum_left in *.
    rewrite fold_left_app, app_length, Nat.add_1_r. cbn [fold_left left_plan carry_out].
    rewrite left_plan_more, app_nth2, Nat.sub_diag, IH by lia. reflexivity.
Qed.

Definition ex_cos (x : f64) : f64 := if fle x (fofZ 1) then fofZ 1 else fofZ (-1).
Definition ex_sin (x : f64) : f64 := fzero.
Definition ex_image (p m : f64) : arr f64 := Arr 3 9 (fun i j => if (i =? 1)%Z && (j =? 6)%Z then p else if (i =? 1)%Z && (j =? 2)%Z then m else fzero).
Definition ex_tuning : spots_tuning := SpotsTuning (fofZ 2) (fofZ 1) 3 (fofZ 1) (fdiv (fofZ 1) (fofZ 2)) (fofZ 3) 2 1.
Definition ex_dim : spots_tuning := SpotsTuning (fofZ 2) (fofZ 1) 3 (fofZ (2 ^ 61)) (fofZ 1) (fofZ 1) 1 1.
Definition ex_bowtie : bowtie_tuning_f := BowtieF (fofZ 2) fzero fzero (fofZ 1) 3 (fofZ 1) (fdiv (fofZ 1) (fofZ 2)) (fofZ 3) (fofZ 1) (fofZ 1) (fofZ 1) (fofZ 1).

Definition shown (r : res f64) := match r with Ok o => Some (B2SF o) | _ => None end.
Lemma shown_ok r s : shown r = Some s -> exists o, r = Ok o /\ fval o = SF2R radix2 s.
Proof. destruct r as [o|e]; cbn [shown]; intros H; [|discriminate]. exists o. split; [reflexivity|]. apply fval_sf. congruence. Qed.
Definition shown2 (r : res (f64 * f64)) := match r with Ok (o, p) => Some (B2SF o, B2SF p) | _ => None end.
Lemma shown2_ok r s u : shown2 r = Some (s, u) -> exists o p, r = Ok (o, p) /\ fval o = SF2R radix2 s /\ fval p = SF2R radix2 u.
Proof. destruct r as [[o p]|e]; cbn [shown2]; intros H; [|discriminate]. exists o, p. split; [reflexivity|]. split; apply fval_sf; congruence. Qed.
Ltac num := unfold SF2R, F2R; cbn [Fnum Fexp cond_Zopp Z.opp];
  repeat match goal with |- context[bpow radix2 (Zneg ?p)] => let v := eval vm_compute in (Z.pow_pos 2 p) in change (bpow radix2 (Zneg p)) with (/ IZR v)%R end;
  repeat match goal with |- context[bpow radix2 (Zpos ?p)] => let v := eval vm_compute in (Z.pow_pos 2 p) in change (bpow radix2 (Zpos p)) with (IZR v)%R end.

Lemma dim_light : let r v := calc_offset_from_spots_f sum_left ex_cos ex_sin (ex_image v (fofZ 1)) fzero fzero fzero ex_dim (fofZ 1) in
  exists o o', r fzero = Ok o /\ r (fdiv (fofZ 1) (fofZ (2 ^ 60))) = Ok o' /\ fval o' < fval o /\ fval o = - (2 ^ 52 - 1) /\ fval o' = - 2 ^ 60.
Proof.
  cbv zeta.
  assert (H1 : shown (calc_offset_from_spots_f sum_left ex_cos ex_sin (ex_image fzero (fofZ 1)) fzero fzero fzero ex_dim (fofZ 1)) =
    Some (SpecFloat.S754_finite true 9007199254740990 (-1))) by (vm_compute; reflexivity).
  assert (H2 : shown (calc_offset_from_spots_f sum_left ex_cos ex_sin (ex_image (fdiv (fofZ 1) (fofZ (2 ^ 60))) (fofZ 1)) fzero fzero fzero ex_dim (fofZ 1)) =
    Some (SpecFloat.S754_finite true 4503599627370496 8)) by (vm_compute; reflexivity).
  apply shown_ok in H1 as (o & E1 & V1). apply shown_ok in H2 as (o' & E2 & V2). exists o, o'.
  split; [exact E1|]. split; [exact E2|]. clear E1 E2. rewrite V1, V2. num. cbn [pow]; split; [lra|]; split; lra.
Qed.

Lemma ordinary_Z z : (1 <= z <= 2 ^ 50)%Z -> ordinary (fofZ z).
Proof.
  intros H. destruct (fofZ_spec z ltac:(lia)) as [V F]. split; [exact F|]. rewrite V. split.
  - apply Rle_trans with (B 0); [apply bpow_le; lia|]. change (B 0) with 1. apply IZR_le. lia.
  - apply Rle_trans with (B 50); [|apply bpow_le; lia]. change (B 50) with (IZR (2 ^ 50)). apply IZR_le. lia.
Qed.
Lemma ordinary_half : ordinary (fdiv (fofZ 1) (fofZ 2)).
Proof.
  assert (V : fval (fdiv (fofZ 1) (fofZ 2)) = / 2) by (erewrite fval_sf; [|vm_compute; reflexivity]; num; lra).
  split; [vm_compute; reflexivity|]. rewrite V. split.
  - apply Rle_trans with (B (-1)); [apply bpow_le; lia|]. change (B (-1)) with (/ 2). lra.
  - apply Rle_trans with (B 0); [|apply bpow_le; lia]. change (B 0) with 1. lra.
Qed.
Lemma ex_ok : photon_counts (ex_image (fofZ 5) (fofZ 3)) /\ spots_parameters ex_tuning /\ ordinary (fofZ 1) /\ bowtie_parameters ex_bowtie.
Proof.
  assert (O1 := ordinary_Z 1 ltac:(lia)). assert (O2 := ordinary_Z 2 ltac:(lia)). assert (O3 := ordinary_Z 3 ltac:(lia)). assert (OH := ordinary_half).
  split; [|split; [|split]].
  - unfold photon_counts. cbn [nr nc ex_image]. split; [lia|]. split; [lia|]. split; [lia|]. intros i j _. unfold ex_image. cbn [at2].
    assert (L : forall z, (1 <= z <= 100)%Z -> is_finite (fofZ z) = true /\ (fval (fofZ z) = 0 \/ 1 <= fval (fofZ z) <= B 350)).
    { intros z Hz. destruct (fofZ_spec z ltac:(lia)) as [V F]. split; [exact F|]. right. rewrite V. split; [apply IZR_le; lia|].
      apply Rle_trans with (B 7); [|apply bpow_le; lia]. change (B 7) with 128. apply IZR_le. lia. }
    destruct ((i =? 1)%Z && (j =? 6)%Z); [apply (L 5%Z); lia|]. destruct ((i =? 1)%Z && (j =? 2)%Z); [apply (L 3%Z); lia|].
    split; [reflexivity|left; reflexivity].
  - unfold spots_parameters. cbn [ex_tuning f_sep f_radius f_ns f_max f_c1 f_c2 f_power f_inside].
    split; [exact O2|]. split; [exact O1|]. split; [lia|]. split; [exact O1|]. split; [exact OH|]. split; [exact O3|]. split; [right|right]; reflexivity.
  - exact O1.
  - unfold bowtie_parameters. cbn [ex_bowtie g_sep g_radius g_ns g_max g_c1x g_c2x g_c1y g_c2y g_tx g_ty].
    split; [exact O2|]. split; [exact O1|]. split; [lia|]. auto 10.
Qed.
Lemma ex_runs : exists o p x y, calc_offset_from_spots_f sum_left ex_cos ex_sin (ex_image (fofZ 5) (fofZ 3)) fzero fzero fzero ex_tuning (fofZ 1) = Ok o /\
  calc_offset_from_spots_f sum_left ex_cos ex_sin (ex_image (fofZ 5) (fofZ 2)) fzero fzero fzero ex_tuning (fofZ 1) = Ok p /\
  calc_bowtie_offsets_f sum_left ex_cos ex_sin (ex_image (fofZ 5) (fofZ 3)) fzero fzero ex_bowtie = Ok (x, y) /\
  0 < fval o /\ fval o < fval p /\ fval x < 0 /\ fval y = 0.
Proof.
  assert (H1 : shown (calc_offset_from_spots_f sum_left ex_cos ex_sin (ex_image (fofZ 5) (fofZ 3)) fzero fzero fzero ex_tuning (fofZ 1)) =
    Some (SpecFloat.S754_finite false 7122536855661547 (-54))) by (vm_compute; reflexivity).
  assert (H2 : shown (calc_offset_from_spots_f sum_left ex_cos ex_sin (ex_image (fofZ 5) (fofZ 2)) fzero fzero fzero ex_tuning (fofZ 1)) =
    Some (SpecFloat.S754_finite false 5662528742715609 (-53))) by (vm_compute; reflexivity).
  assert (H3 : shown2 (calc_bowtie_offsets_f sum_left ex_cos ex_sin (ex_image (fofZ 5) (fofZ 3)) fzero fzero ex_bowtie) =
    Some (SpecFloat.S754_finite true 7122536855661547 (-54), SpecFloat.S754_zero false)) by (vm_compute; reflexivity).
  apply shown_ok in H1 as (o & E1 & V1). apply shown_ok in H2 as (p & E2 & V2). apply shown2_ok in H3 as (x & y & E3 & V3 & V4).
  exists o, p, x, y. split; [exact E1|]. split; [exact E2|]. split; [exact E3|]. clear E1 E2 E3. rewrite V1, V2, V3, V4. num.
  split; [lra|]. split; [lra|]. split; [lra|reflexivity].
Qed.
Lemma ex_bad : bad_pixel (ex_image fnan (fofZ 3)) /\
  calc_offset_from_spots_f sum_left ex_cos ex_sin (ex_image fnan (fofZ 3)) fzero fzero fzero ex_tuning (fofZ 1) = Ok fnan.
Proof.
  assert (Bd : bad_pixel (ex_image fnan (fofZ 3))).
  { exists 1%Z, 6%Z. split; [unfold in_arr; cbn [nr nc ex_image]; lia|left; reflexivity]. }
  split; [exact Bd|].
  assert (H1 : shown (calc_offset_from_spots_f sum_left ex_cos ex_sin (ex_image fnan (fofZ 3)) fzero fzero fzero ex_tuning (fofZ 1)) =
    Some SpecFloat.S754_nan) by (vm_compute; reflexivity).
  apply shown_ok in H1 as (o & E1 & _). 
  assert (Hn : (f_ns ex_tuning <= 2 ^ 26)%Z) by (cbn [ex_tuning f_ns]; lia).
  assert (Eo : o = fnan) by exact (spots_bad sum_left ex_cos ex_sin (ex_image fnan (fofZ 3)) fzero fzero fzero ex_tuning (fofZ 1) o (proj1 sum_left_ok) Bd Hn E1).
  rewrite Eo in E1. exact E1.
Qed.
Lemma ex_no_limit : exists o, calc_offset_from_spots_f sum_left ex_cos ex_sin (ex_image (fofZ 1) (fofZ (2 ^ 80))) fzero fzero fzero (with_limit ex_dim fnan) (fofZ 1) = Ok o /\
  fval o < - 2 ^ 79.
Proof.
  assert (H1 : shown (calc_offset_from_spots_f sum_left ex_cos ex_sin (ex_image (fofZ 1) (fofZ (2 ^ 80))) fzero fzero fzero (with_limit ex_dim fnan) (fofZ 1)) =
    Some (SpecFloat.S754_finite true 4503599627370496 28)) by (vm_compute; reflexivity).
  apply shown_ok in H1 as (o & E1 & V1). exists o. split; [exact E1|]. clear E1. rewrite V1. num. lra.
Qed.
Lemma ex_accuracy : ordinary (fofZ 1) /\ ordinary (fofZ 3) /\ positive_ratio (fofZ 15) /\ calibrated (fval (fofZ 1)) (fval (fofZ 3)) (fval (fofZ 15)) 2.
Proof.
  split; [apply ordinary_Z; lia|]. split; [apply ordinary_Z; lia|]. destruct (fofZ_spec 15 ltac:(lia)) as [V F]. destruct (fofZ_spec 1 ltac:(lia)) as [V1 _].
  destruct (fofZ_spec 3 ltac:(lia)) as [V3 _]. split.
  - split; [exact F|]. rewrite V. split.
    + apply Rle_trans with (B 0); [apply bpow_le; lia|]. change (B 0) with 1. lra.
    + apply Rle_trans with (B 4); [|apply bpow_le; lia]. change (B 4) with 16. lra.
  - left. rewrite V, V1, V3. split; lra.
Qed.
