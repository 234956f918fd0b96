(** C107: Fresnel propagation in double precision. *)
From Coq Require Import ZArith Reals Bool List Lia Lra String.
From Coquelicot Require Import Complex.
From Flocq Require Import Core BinarySingleNaN.
From Verif.Base Require Import Py F64 Arr Sums Fft.
From Verif.Model Require Import MftF FresnelF.
From Verif.Spec Require Import MftFSpec NollFSpec FresnelSpec FresnelFSpec RefuseSpec.
From Verif.Proofs Require Import F64P F64N NollFEx MftFEx FresnelP FresnelFP FresnelFQ FresnelFR FresnelFEx FresnelFEy FresnelFRound FresnelFfft RefuseP.
Import ListNotations.
Local Open Scope R_scope.

(** Every entry of the phase factor is finite and close to exp(-i pi lam z (fx^2 + fy^2)). *)
Theorem C107_transfer : forall pw h ex, pow2_ok pw -> hypot_ok h -> hypot_zero h -> cexp_ok ex -> forall lam z nx ppm fp,
  usable_sampling lam -> usable_distance z -> usable_sampling ppm -> (nx <= 2 ^ 20)%Z -> get_fp_f pw h ex lam z nx ppm = Ok fp ->
  nr fp = nx /\ nc fp = nx /\ forall k l, (0 <= k < nx)%Z -> (0 <= l < nx)%Z ->
  cfin (at2 fp k l) /\ Cmod (cval (at2 fp k l) - fresnel_transfer (fval lam) (fval z) (fval ppm) nx k l)%C
     <= bpow radix2 (-49) * phase_size (fval lam) (fval z) (fval ppm) nx k l + bpow radix2 (-51).
Proof. exact transfer. Qed.
Print Assumptions C107_transfer.

(** The sampling criterion lam |z| ppm^2 <= nx is decided as for exact numbers away from equality: by one part in 2^50. *)
Theorem C107_sampling_partial : forall pw h ex, pow2_ok pw -> forall lam z nx ppm,
  usable_sampling lam -> usable_distance z -> usable_sampling ppm -> (0 < nx)%Z ->
  let X := points_needed (fval lam) (fval z) (fval ppm) in
  (X * (1 + bpow radix2 (-50)) <= IZR nx -> exists fp, get_fp_f pw h ex lam z nx ppm = Ok fp) /\
  (IZR nx < X * (1 - bpow radix2 (-50)) -> get_fp_f pw h ex lam z nx ppm = Err ValueError).
Proof. exact sampling. Qed.
Print Assumptions C107_sampling_partial.
(** At equality it is not: 255 points are enough for 510 nm, 1.25 m and 20000 pixels per metre, and are refused; ... *)
Theorem C107_enough_refuted : ~ (forall pw h ex, pow2_ok pw -> hypot_ok h -> hypot_zero h -> cexp_ok ex -> forall lam z nx ppm,
  usable_sampling lam -> usable_distance z -> usable_sampling ppm -> (0 < nx)%Z ->
  points_needed (fval lam) (fval z) (fval ppm) <= IZR nx -> exists fp, get_fp_f pw h ex lam z nx ppm = Ok fp).
Proof.
  intros H. destruct sizes as (S1 & S2 & S3 & S4 & S5). destruct (H pow2_ref hypot_ref cexp_ref pow2_ref_ok hypot_ref_ok hypot_ref_zero cexp_ref_ok lam510 z125 255%Z (fofZ 20000)) as [fp E]; auto; try lia; [apply needed510|].
  rewrite refused510 in E. discriminate.
Qed.
Print Assumptions C107_enough_refuted.
(** ... 220 points are too few for the double 5.5e-07, 1 m and 20000 pixels per metre, and are accepted. *)
Theorem C107_too_few_refuted : ~ (forall pw h ex, pow2_ok pw -> hypot_ok h -> hypot_zero h -> cexp_ok ex -> forall lam z nx ppm fp,
  usable_sampling lam -> usable_distance z -> usable_sampling ppm -> get_fp_f pw h ex lam z nx ppm = Ok fp ->
  points_needed (fval lam) (fval z) (fval ppm) <= IZR nx).
Proof.
  intros H. destruct sizes as (S1 & S2 & S3 & S4 & S5). destruct (accepted550 hypot_ref cexp_ref) as [fp E].
  specialize (H pow2_ref hypot_ref cexp_ref pow2_ref_ok hypot_ref_ok hypot_ref_zero cexp_ref_ok lam550 (fofZ 1) 220%Z (fofZ 20000) fp S2 S4 S5 E). pose proof needed550. lra.
Qed.
Print Assumptions C107_too_few_refuted.

(** The propagated field: within a multiple of the error of the Fourier transforms, plus the rounding of the phase, of the exact
    propagation of the given field. *)
Theorem C107_propagation : forall pw h ex ffft fifft eta, 0 <= eta <= / 100 -> transform_ok eta fft2 ffft -> transform_ok eta ifft2 fifft ->
  pow2_ok pw -> hypot_ok h -> hypot_zero h -> cexp_ok ex -> forall e lam z nx ppm out,
  usable_sampling lam -> usable_distance z -> usable_sampling ppm -> fval z <> 0 -> (nx <= 2 ^ 20)%Z -> (0 < Z.min (nr e) (nc e) <= 2 ^ 20)%Z ->
  finite_field e -> field_size (cvals e) <= bpow radix2 450 -> fresnelprop_f pw h ex ffft fifft e lam z nx ppm = Ok out ->
  nr out = nr e /\ nc out = nc e /\ finite_field out /\ exists x, propagated (cvals e) (fval lam) (fval z) nx (fval ppm) x /\
    field_dist (cvals out) x <= (3 * eta + bpow radix2 (-47) * IZR (Z.min (nr e) (nc e))) * field_size (cvals e) + bpow radix2 (-890).
Proof. exact fresnelprop_near. Qed.
Print Assumptions C107_propagation.
(** The same with a factor computed beforehand. *)
Theorem C107_with_factor : forall pw h ex ffft fifft eta, 0 <= eta <= / 100 -> transform_ok eta fft2 ffft -> transform_ok eta ifft2 fifft ->
  pow2_ok pw -> hypot_ok h -> hypot_zero h -> cexp_ok ex -> forall e lam z nx ppm fp,
  usable_sampling lam -> usable_distance z -> usable_sampling ppm -> fval z <> 0 -> (nx <= 2 ^ 20)%Z -> (0 < nr e)%Z -> (0 < nc e)%Z ->
  finite_field e -> field_size (cvals e) <= bpow radix2 450 -> get_fp_f pw h ex lam z nx ppm = Ok fp ->
  exists out, fresnelprop_fp_f ffft fifft e z nx fp = Ok out /\ nr out = nr e /\ nc out = nc e /\ finite_field out /\
  exists x, propagated (cvals e) (fval lam) (fval z) nx (fval ppm) x /\
    field_dist (cvals out) x <= (3 * eta + bpow radix2 (-47) * IZR nx) * field_size (cvals e) + bpow radix2 (-890).
Proof. exact fresnelprop_fp_near. Qed.
Print Assumptions C107_with_factor.
(** Computing the factor beforehand changes no bit of the result. *)
Theorem C107_factor_same : forall pw h ex ffft fifft e lam z nx ppm out fp, fresnelprop_f pw h ex ffft fifft e lam z nx ppm = Ok out ->
  get_fp_f pw h ex lam z nx ppm = Ok fp -> fresnelprop_fp_f ffft fifft e z nx fp = Ok out.
Proof. exact factor_same. Qed.
Print Assumptions C107_factor_same.
(** There and back: the propagation over the opposite distance of a square field propagated on its own grid is accepted and returns
    the field. *)
Theorem C107_round_trip : forall pw h ex ffft fifft eta, 0 <= eta <= / 100 -> transform_ok eta fft2 ffft -> transform_ok eta ifft2 fifft ->
  pow2_ok pw -> hypot_ok h -> hypot_zero h -> cexp_ok ex -> forall e lam z n ppm f,
  usable_sampling lam -> usable_distance z -> usable_sampling ppm -> fval z <> 0 -> (0 < n <= 2 ^ 20)%Z -> nr e = n -> nc e = n ->
  finite_field e -> field_size (cvals e) <= bpow radix2 440 -> fresnelprop_f pw h ex ffft fifft e lam z n ppm = Ok f ->
  exists g, fresnelprop_f pw h ex ffft fifft f lam (fopp z) n ppm = Ok g /\ nr g = n /\ nc g = n /\ finite_field g /\
    field_dist (cvals g) (cvals e) <= 3 * (3 * eta + bpow radix2 (-47) * IZR n) * field_size (cvals e) + bpow radix2 (-880).
Proof. exact round_trip. Qed.
Print Assumptions C107_round_trip.
(** The centred transforms: the spectrum, ... *)
Theorem C107_do_fft : forall ffft eta e, transform_ok eta fft2 ffft -> (0 < nr e <= 2 ^ 20)%Z -> (0 < nc e <= 2 ^ 20)%Z -> finite_field e -> field_size (cvals e) <= bpow radix2 500 ->
  exists r, do_fft_f ffft e = Ok r /\ nr r = nr e /\ nc r = nc e /\ finite_field r /\
    field_dist (cvals r) (Arr (nr e) (nc e) (spectrum (cvals e))) <= eta * (sqrt (IZR (nr e) * IZR (nc e)) * field_size (cvals e)) + bpow radix2 (-900).
Proof. exact (fun f => centred_fft f f). Qed.
Print Assumptions C107_do_fft.
(** ... the field with a given spectrum, ... *)
Theorem C107_do_ifft : forall fifft eta e, transform_ok eta ifft2 fifft -> (0 < nr e <= 2 ^ 20)%Z -> (0 < nc e <= 2 ^ 20)%Z -> finite_field e -> field_size (cvals e) <= bpow radix2 500 ->
  exists r g, do_ifft_f fifft e = Ok r /\ nr r = nr e /\ nc r = nc e /\ finite_field r /\ nr g = nr e /\ nc g = nc e /\
    (forall k l, (0 <= k < nr e)%Z -> (0 <= l < nc e)%Z -> spectrum g k l = cval (at2 e k l)) /\
    sqrt (IZR (nr e) * IZR (nc e)) * field_size g = field_size (cvals e) /\ field_dist (cvals r) g <= eta * field_size g + bpow radix2 (-900).
Proof. exact (fun f => centred_ifft f f). Qed.
Print Assumptions C107_do_ifft.
(** ... and one after the other, for fields of every shape. *)
Theorem C107_fft_round_trip : forall ffft fifft eta, 0 <= eta <= / 100 -> forall e r, transform_ok eta fft2 ffft -> transform_ok eta ifft2 fifft ->
  (0 < nr e <= 2 ^ 20)%Z -> (0 < nc e <= 2 ^ 20)%Z -> finite_field e -> field_size (cvals e) <= bpow radix2 450 -> do_fft_f ffft e = Ok r ->
  exists b, do_ifft_f fifft r = Ok b /\ nr b = nr e /\ nc b = nc e /\ finite_field b /\
    field_dist (cvals b) (cvals e) <= 3 * eta * field_size (cvals e) + bpow radix2 (-890).
Proof. exact fft_then_ifft. Qed.
Print Assumptions C107_fft_round_trip.
(** The specification determines the field. *)
Theorem C107_propagated_unique : forall e lam z nx ppm x y, wf e -> (0 < nx)%Z -> propagated e lam z nx ppm x -> propagated e lam z nx ppm y -> aeq x y.
Proof. exact propagated_unique. Qed.
Print Assumptions C107_propagated_unique.
(** A zero distance returns the field itself, of either sign of zero, whatever its entries. *)
Theorem C107_zero_distance : forall pw h ex ffft fifft e lam z nx ppm fp, fval z = 0 -> is_finite z = true -> (0 < nx)%Z -> fle lam fzero = false -> fle ppm fzero = false ->
  fresnelprop_f pw h ex ffft fifft e lam z nx ppm = Ok e /\ fresnelprop_fp_f ffft fifft e z nx fp = Ok e.
Proof. exact zero_distance. Qed.
Print Assumptions C107_zero_distance.
(** Which arguments are refused, and how. *)
Theorem C107_get_fp_refused : forall pw h ex lam z nx ppm err, get_fp_f pw h ex lam z nx ppm = Err err <-> refused (get_fp_f_needs pw lam z nx ppm) err.
Proof. exact get_fp_f_refused. Qed.
Print Assumptions C107_get_fp_refused.
Theorem C107_fresnelprop_refused : forall pw h ex ffft fifft, keeps_shape ffft -> keeps_shape fifft -> forall e lam z nx ppm err, wf e ->
  fresnelprop_f pw h ex ffft fifft e lam z nx ppm = Err err <-> refused (fresnelprop_f_needs pw e lam z nx ppm) err.
Proof. exact fresnelprop_f_refused. Qed.
Print Assumptions C107_fresnelprop_refused.
Theorem C107_fresnelprop_fp_refused : forall ffft fifft, keeps_shape ffft -> keeps_shape fifft -> forall e z nx fp err, wf e ->
  fresnelprop_fp_f ffft fifft e z nx fp = Err err <-> refused (fresnelprop_fp_f_needs e z nx fp) err.
Proof. exact fresnelprop_fp_f_refused. Qed.
Print Assumptions C107_fresnelprop_fp_refused.
Theorem C107_fft_refused : forall f e err, (do_fft_f f e = Err err <-> refused [((0 < nr e)%Z /\ (0 < nc e)%Z, ValueError)] err) /\
  (do_ifft_f f e = Err err <-> refused [((0 < nr e)%Z /\ (0 < nc e)%Z, ValueError)] err).
Proof. intros. split; [apply fft_f_refused|apply ifft_f_refused]. Qed.
Print Assumptions C107_fft_refused.

(** The hypotheses on the routines hold of routines that round correctly. *)
Example C107_routines : pow2_ok pow2_ref /\ hypot_ok hypot_ref /\ hypot_zero hypot_ref /\ cexp_ok cexp_ref /\
  transform_ok (bpow radix2 (-50)) fft2 fft_ref /\ transform_ok (bpow radix2 (-50)) ifft2 ifft_ref /\ keeps_shape fft_ref /\ keeps_shape ifft_ref.
Proof. repeat split; try apply pow2_ref_ok; try apply hypot_ref_ok; auto using hypot_ref_zero, fft_ref_ok, ifft_ref_ok; apply cexp_ref_ok; assumption. Qed.
(** 550 nm over 1 m at 20000 pixels per metre, with 221 points; a lit pixel propagates with a factor computed beforehand. *)
Lemma enough550 : points_needed (fval lam550) (fval (fofZ 1)) (fval (fofZ 20000)) * (1 + bpow radix2 (-50)) <= IZR 221.
Proof.
  unfold points_needed. destruct (fofZ_spec 1) as [V5 F5]; [cbn; lia|]. rewrite (proj2 lam550_val), V5, (proj2 ppm_val). rewrite Rabs_right by lra.
  change (bpow radix2 (-73)) with (/ 9444732965739290427392). change (bpow radix2 (-50)) with (/ 1125899906842624). lra.
Qed.
Lemma lit_ok : finite_field lit /\ field_size (cvals lit) = 1.
Proof.
  split; [intros i j _; split; reflexivity|]. rewrite field_size_nrm. cbn [cvals lit nr nc at2]. unfold nrm. rewrite rsum2_const by lia. rewrite cval_1. rewrite CSum.Cmod2_R. replace (1 * 1 * (1 * 1)) with 1 by ring. apply sqrt_1.
Qed.
Example C107_ex : exists fp out, get_fp_f pow2_ref hypot_ref cexp_ref lam550 (fofZ 1) 221 (fofZ 20000) = Ok fp /\ cfin (at2 fp 0 220) /\
  fresnelprop_fp_f fft_ref ifft_ref lit (fofZ 1) 221 fp = Ok out /\ nr out = 1%Z /\ finite_field out.
Proof.
  destruct sizes as (S1 & S2 & S3 & S4 & S5). destruct (C107_sampling_partial pow2_ref hypot_ref cexp_ref pow2_ref_ok lam550 (fofZ 1) 221 (fofZ 20000) S2 S4 S5 ltac:(lia)) as [A _].
  destruct (A enough550) as [fp E]. destruct lit_ok as [L1 L2].
  destruct (C107_transfer pow2_ref hypot_ref cexp_ref pow2_ref_ok hypot_ref_ok hypot_ref_zero cexp_ref_ok lam550 (fofZ 1) 221 (fofZ 20000) fp S2 S4 S5 ltac:(lia) E) as (_ & _ & F).
  destruct (fofZ_spec 1) as [V1 _]; [cbn; lia|].
  destruct (C107_with_factor pow2_ref hypot_ref cexp_ref fft_ref ifft_ref (bpow radix2 (-50))) with (e := lit) (lam := lam550) (z := fofZ 1) (nx := 221%Z) (ppm := fofZ 20000) (fp := fp) as (out & Eo & R1 & _ & F1 & _);
    auto using pow2_ref_ok, hypot_ref_ok, hypot_ref_zero, cexp_ref_ok, fft_ref_ok, ifft_ref_ok; try lia; try reflexivity.
  - change (bpow radix2 (-50)) with (/ 1125899906842624). lra.
  - rewrite V1. lra.
  - rewrite L2. change 1 with (bpow radix2 0). apply bpow_le. lia.
  - exists fp, out. split; [auto|]. split; [apply F; lia|]. split; [auto|]. split; [exact R1|exact F1].
Qed.
(** Four lit pixels, a wavelength and distance of 1 m at 1 pixel per metre: there and back. *)
Example C107_round_trip_ex : let e := Arr 2 2 (fun _ _ => (fofZ 1, fzero)) in
  exists f g, fresnelprop_f pow2_ref hypot_ref cexp_ref fft_ref ifft_ref e (fofZ 1) (fofZ 1) 2 (fofZ 1) = Ok f /\
    fresnelprop_f pow2_ref hypot_ref cexp_ref fft_ref ifft_ref f (fofZ 1) (fopp (fofZ 1)) 2 (fofZ 1) = Ok g /\
    field_dist (cvals g) (cvals e) <= bpow radix2 (-40).
Proof.
  intros e. destruct sizes as (S1 & S2 & S3 & S4 & S5). destruct (fofZ_spec 1) as [V1 G1]; [cbn; lia|].
  assert (U1 : usable_sampling (fofZ 1)).
  { split; [exact G1|]. rewrite V1. split; [change 1 with (bpow radix2 0); apply bpow_le; lia|change 1 with (bpow radix2 0); apply bpow_le; lia]. }
  assert (Se : field_size (cvals e) = 2).
  { rewrite field_size_nrm. cbn [cvals e nr nc at2]. unfold nrm. rewrite rsum2_const by lia. rewrite cval_1, CSum.Cmod2_R. replace (2 * 2 * (1 * 1)) with (2 * 2) by ring. apply sqrt_square. lra. }
  destruct (fresnelprop_f pow2_ref hypot_ref cexp_ref fft_ref ifft_ref e (fofZ 1) (fofZ 1) 2 (fofZ 1)) as [f|err] eqn:E.
  - destruct (C107_round_trip pow2_ref hypot_ref cexp_ref fft_ref ifft_ref (bpow radix2 (-50))) with (e := e) (lam := fofZ 1) (z := fofZ 1) (n := 2%Z) (ppm := fofZ 1) (f := f) as (g & Eg & _ & _ & _ & D);
      auto using pow2_ref_ok, hypot_ref_ok, hypot_ref_zero, cexp_ref_ok, fft_ref_ok, ifft_ref_ok; try lia; try reflexivity.
    + change (bpow radix2 (-50)) with (/ 1125899906842624). lra.
    + rewrite V1. lra.
    + intros i j _. split; reflexivity.
    + rewrite Se. change 2 with (bpow radix2 1). apply bpow_le. lia.
    + exists f, g. split; [reflexivity|]. split; [exact Eg|]. eapply Rle_trans; [exact D|]. rewrite Se. assert (bpow radix2 (-880) <= bpow radix2 (-50)) by (apply bpow_le; lia).
      change (bpow radix2 (-50)) with (/ 1125899906842624) in *. change (bpow radix2 (-47)) with (/ 140737488355328). change (bpow radix2 (-40)) with (/ 1099511627776). lra.
  - exfalso. destruct ref_shapes as [K1 K2]. apply C107_fresnelprop_refused in E; [|exact K1|exact K2|split; cbn; lia]. revert E.
    assert (P1 : forall p, pow2_ref (fofZ 1) = Some p -> p = fmul (fofZ 1) (fofZ 1)) by (intros p; unfold pow2_ref; destruct (_ && _); [discriminate|]; intros [= <-]; reflexivity).
    intros E. apply (refused_met _ _ E). clear E. unfold fresnelprop_f_needs. repeat apply Forall_cons; cbn [fst]; [vm_compute; reflexivity|lia|vm_compute; reflexivity| | | | | |apply Forall_nil].
    + intros _. unfold pow2_ref. replace (is_finite (fofZ 1) && negb (is_finite (fmul (fofZ 1) (fofZ 1)))) with false by (vm_compute; reflexivity). discriminate.
    + intros _ p Ep N. rewrite (P1 p Ep) in N. apply (f_equal (fun x => B2SF x)) in N. vm_compute in N. discriminate.
    + intros _ p Ep t N. rewrite (P1 p Ep) in N. apply (f_equal (fun x => B2SF x)) in N. vm_compute in N. discriminate.
    + intros _ p Ep. rewrite (P1 p Ep). unfold fval. rewrite <- SF2R_B2SF.
      replace (B2SF (fmul (fmul (fofZ 1) (Babs (fofZ 1))) (fmul (fofZ 1) (fofZ 1)))) with (SpecFloat.S754_finite false 4503599627370496 (-52)) by (vm_compute; reflexivity). unfold SF2R, F2R. cbn [Fnum Fexp cond_Zopp].
      change (Z.min (nr e) (nc e)) with 2%Z. change (bpow radix2 (-52)) with (/ 4503599627370496). lra.
    + intros _. split; [change (0 < 2)%Z|change (0 < 2)%Z]; lia.
Qed.
(** nan, infinity and the overflow of ppm**2. *)
Example C107_exceptions : forall h ex, get_fp_f pow2_ref h ex (fofZ 1) fnan 8 (fofZ 1) = Err ValueError /\
  get_fp_f pow2_ref h ex (fofZ 1) (B754_infinity true) 8 (fofZ 1) = Err (Custom "OverflowError") /\
  get_fp_f pow2_ref h ex (fofZ 1) (fofZ 0) 8 (fofZ (2 ^ 600)) = Err (Custom "OverflowError") /\
  get_fp_f pow2_ref h ex fnan (fofZ 0) 8 (fofZ 1) = Err ValueError.
Proof. intros h ex. repeat split; vm_compute; reflexivity. Qed.
