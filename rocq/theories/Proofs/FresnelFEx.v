(** Squares that round correctly, and two samplings the criterion decides wrongly. *)
From Coq Require Import ZArith Reals Bool List Lia Lra String.
From Coquelicot Require Import Complex.
From Flocq Require Import Core BinarySingleNaN.
From Verif.Base Require Import Py F64 Arr Sums.
From Verif.Model Require Import MftF FresnelF.
From Verif.Spec Require Import MftFSpec NollFSpec FresnelFSpec.
From Verif.Proofs Require Import F64P F64N LibmRef NollFP NollFEx MftFP MftFQ MftFR MftFEx FresnelFP.
Local Open Scope R_scope.
Local Notation B := (bpow radix2).

(** x*x, an overflow being an exception *)
Definition pow2_ref (x : f64) : option f64 := let p := fmul x x in if is_finite x && negb (is_finite p) then None else Some p.
Lemma pow2_ref_ok : pow2_ok pow2_ref.
Proof.
  intros x F H. assert (Q : Rabs (fval x * fval x) <= B 1000).
  { rewrite Rabs_mult. change 1000%Z with (500 + 500)%Z. rewrite bpow_plus. apply Rmult_le_compat; auto; apply Rabs_pos. }
  destruct (fmul_spec x x F F) as [V Fm]. { apply (rnd_small _ 1000); [lia|exact Q]. }
  exists (fmul x x). unfold pow2_ref. rewrite F, Fm. cbn [andb negb]. split; auto. split; auto. rewrite V. replace (fval x ^ 2) with (fval x * fval x) by ring.
  assert (P : 0 <= fval x * fval x) by nra. eapply Rle_trans; [apply rnd_err|]. rewrite Rabs_right by lra.
  assert (B (-53) <= B (-52)) by (apply bpow_le; lia). assert (B (-1075) <= B (-1074)) by (apply bpow_le; lia). nra.
Qed.
Lemma hypot_ref_zero : hypot_zero hypot_ref.
Proof.
  unfold hypot_zero, hypot_ref. change (fval (fofZ 0)) with 0. rewrite !Rmult_0_l, Rplus_0_l, sqrt_0. destruct (of_R_spec 0) as [V _]; [rewrite Rabs_R0; apply bpow_ge_0|]. rewrite V. apply rnd_0.
Qed.

Definition lam510 : f64 := fdiv (fofZ 51) (fofZ 100000000).   (* 5.1e-07 *)
Definition lam550 : f64 := fdiv (fofZ 55) (fofZ 100000000).   (* 5.5e-07 *)
Definition z125 : f64 := fdiv (fofZ 5) (fofZ 4).              (* 1.25 *)
Lemma of_sf (x : f64) m e : B2SF x = SpecFloat.S754_finite false m e -> is_finite x = true /\ fval x = IZR (Zpos m) * B e.
Proof. intros H. split; [rewrite <- is_finite_SF_B2SF, H; reflexivity|]. unfold fval. rewrite <- SF2R_B2SF, H. reflexivity. Qed.
Lemma lam510_val : is_finite lam510 = true /\ fval lam510 = 4816813812527038 * B (-73).
Proof. apply of_sf. vm_compute. reflexivity. Qed.
Lemma lam550_val : is_finite lam550 = true /\ fval lam550 = 5194603131156610 * B (-73).
Proof. apply of_sf. vm_compute. reflexivity. Qed.
Lemma z125_val : is_finite z125 = true /\ fval z125 = 5 / 4.
Proof. destruct (of_sf z125 5629499534213120 (-52)) as [F V]; [vm_compute; reflexivity|]. split; auto. rewrite V. change (B (-52)) with (/ 4503599627370496). lra. Qed.
Lemma ppm_val : is_finite (fofZ 20000) = true /\ fval (fofZ 20000) = 20000.
Proof. destruct (fofZ_spec 20000) as [V F]; [cbn; lia|]. auto. Qed.
Lemma size_bounds x : 1 * B (-50) <= x <= 1000000 -> B (-100) <= x <= B 100.
Proof.
  intros [A D]. split; [eapply Rle_trans; [|exact A]; rewrite Rmult_1_l; apply bpow_le; lia|]. eapply Rle_trans; [exact D|]. apply Rle_trans with (B 20); [change (B 20) with 1048576; lra|apply bpow_le; lia].
Qed.
Lemma sizes : usable_sampling lam510 /\ usable_sampling lam550 /\ usable_distance z125 /\ usable_distance (fofZ 1) /\ usable_sampling (fofZ 20000).
Proof.
  destruct lam510_val as [F1 V1]. destruct lam550_val as [F2 V2]. destruct z125_val as [F3 V3]. destruct ppm_val as [F4 V4]. destruct (fofZ_spec 1) as [V5 F5]; [cbn; lia|].
  pose proof (bpow_gt_0 radix2 (-73)) as P. assert (Q : B (-50) = 8388608 * B (-73)) by (change 8388608 with (B 23); rewrite <- bpow_plus; reflexivity).
  assert (Q' : 4503599627370496 * B (-73) = B (-21)) by (change 4503599627370496 with (B 52); rewrite <- bpow_plus; reflexivity). change (B (-21)) with (/ 2097152) in Q'. assert (B50 : B (-50) <= 1) by (change 1 with (B 0); apply bpow_le; lia).
  split; [split; auto; apply size_bounds; rewrite V1; lra|]. split; [split; auto; apply size_bounds; rewrite V2; lra|].
  split; [split; auto; right; rewrite Rabs_right by (rewrite V3; lra); apply size_bounds; rewrite V3; lra|].
  split; [split; auto; right; rewrite Rabs_right by (rewrite V5; lra); apply size_bounds; rewrite V5; lra|split; auto; apply size_bounds; rewrite V4; lra].
Qed.
Lemma needed510 : points_needed (fval lam510) (fval z125) (fval (fofZ 20000)) <= 255.
Proof.
  unfold points_needed. rewrite (proj2 lam510_val), (proj2 z125_val), (proj2 ppm_val). rewrite Rabs_right by lra. change (B (-73)) with (/ 9444732965739290427392). lra.
Qed.
Lemma needed550 : 220 < points_needed (fval lam550) (fval (fofZ 1)) (fval (fofZ 20000)).
Proof.
  unfold points_needed. destruct (fofZ_spec 1) as [V5 F5]; [cbn; lia|]. rewrite (proj2 lam550_val), V5, (proj2 ppm_val). rewrite Rabs_right by lra. change (B (-73)) with (/ 9444732965739290427392). lra.
Qed.
Lemma pow2_20000 : pow2_ref (fofZ 20000) = Some (fmul (fofZ 20000) (fofZ 20000)).
Proof. reflexivity. Qed.
Lemma refused510 h ex : get_fp_f pow2_ref h ex lam510 z125 255 (fofZ 20000) = Err ValueError.
Proof. vm_compute. reflexivity. Qed.
Lemma accepted550 h ex : exists fp, get_fp_f pow2_ref h ex lam550 (fofZ 1) 220 (fofZ 20000) = Ok fp.
Proof.
  unfold get_fp_f. assert (E : n_samples_min_f pow2_ref lam550 (fofZ 1) (fofZ 20000) = Ok 220%Z) by (vm_compute; reflexivity). rewrite E.
  replace (fle lam550 fzero) with false by (vm_compute; reflexivity). replace (fle (fofZ 20000) fzero) with false by (vm_compute; reflexivity). cbn [negb guard bind Z.ltb Z.compare]. eexists. reflexivity.
Qed.
