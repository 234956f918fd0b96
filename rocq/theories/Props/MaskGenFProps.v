(** C93: gen_hlc_occulter and its own refusal to upsample, in binary64. *)
From Coq Require Import ZArith Bool String Reals Lia Lra.
From Flocq Require Import Core BinarySingleNaN.
From Verif.Base Require Import Py F64.
From Verif.Model Require Import Math MaskGenF.
From Verif.Spec Require Import MaskGenFSpec.
From Verif.Proofs Require Import MathP MaskGenFP MaskGenFEx.
Open Scope R_scope.

(** C93. Full claim: a mask asked for at a coarser resolution than its design is never refused as upsampling.
    Proved: for ordinary starting and ending resolutions and a padded size up to 2^50, the magnification computed with
    binary64 arithmetic is accepted and lies in (0, 1], unless start / end * size is an integer up to one part in 2^52.
    Missing: those nearly integral products, where the claim is false (C93_refuted). In exact arithmetic the claim has no
    such exception (C69_magnification). *)
Theorem C93_accepts_partial (pplStart pplEnd : f64) N : ordinary pplStart -> ordinary pplEnd -> (1 <= N <= 2 ^ 50)%Z ->
  2 <= fval pplStart / fval pplEnd * IZR N <= bpow radix2 50 ->
  ~ nearly_integer (fval pplStart / fval pplEnd * IZR N) ->
  exists mag, magnification_f pplStart pplEnd N = Ok mag /\ 0 < fval mag <= 1.
Proof. exact (magnification_accepts pplStart pplEnd N). Qed.
Print Assumptions C93_accepts_partial.

(** In every case the outcome is a magnification in (0, 1] or that type error. *)
Theorem C93_outcomes (pplStart pplEnd : f64) N : ordinary pplStart -> ordinary pplEnd -> (1 <= N <= 2 ^ 50)%Z ->
  2 <= fval pplStart / fval pplEnd * IZR N <= bpow radix2 50 ->
  (exists mag, magnification_f pplStart pplEnd N = Ok mag /\ 0 < fval mag <= 1) \/
  (magnification_f pplStart pplEnd N = Err TypeError /\ nearly_integer (fval pplStart / fval pplEnd * IZR N)).
Proof. exact (magnification_outcomes pplStart pplEnd N). Qed.
Print Assumptions C93_outcomes.

Example C93_ex : ordinary (fofZ 7) /\ ordinary (fofZ 2) /\ (1 <= 3 <= 2 ^ 50)%Z /\
  2 <= fval (fofZ 7) / fval (fofZ 2) * IZR 3 <= bpow radix2 50 /\ ~ nearly_integer (fval (fofZ 7) / fval (fofZ 2) * IZR 3).
Proof.
  destruct (ordinary_int 7 ltac:(lia)) as [A VA]. destruct (ordinary_int 2 ltac:(lia)) as [B VB]. rewrite VA, VB.
  split; [exact A|]. split; [exact B|]. split; [lia|]. split; [|exact half_not_near].
  split; [lra|]. apply Rle_trans with (bpow radix2 4); [cbn; lra|apply bpow_le; lia].
Qed.

(** Settings that pass every check and ask for less than a third of the resolution of the design are refused as upsampling,
    with and without scaling with wavelength: the rounded magnification is 1 + 2^-52. *)
Theorem C93_refuted : exists FN lam0 dx ppl lam rOcc oversize, coarse_request FN lam0 dx ppl lam rOcc oversize /\
  forall scale, hlc_magnification_f FN lam0 dx ppl lam rOcc oversize scale = Err TypeError.
Proof. exists (fofZ 28), wave, micron, (fofZ 5), wave, (fofZ 20), (fofZ 8). split; [apply coarse_ex; lia|exact upsampling_reported]. Qed.
Print Assumptions C93_refuted.

(** A resolution that is not zero but too small for a double ends in a division by zero, in the requested mask or in the
    design. *)
Theorem C93_vanishing_request FN lam0 dx ppl lam rOcc oversize :
  positive_double lam0 -> positive_double lam -> positive_double ppl -> ordinary rOcc -> ordinary oversize ->
  fval lam0 / fval lam <= bpow radix2 (-1075) ->
  hlc_magnification_f FN lam0 dx ppl lam rOcc oversize true = Err ZeroDivisionError.
Proof. exact (vanishing_request FN lam0 dx ppl lam rOcc oversize). Qed.
Print Assumptions C93_vanishing_request.
Theorem C93_vanishing_design pplStart pplEnd N : is_finite pplStart = true -> fval pplStart = 0 -> positive_double pplEnd ->
  (1 <= N <= 2 ^ 50)%Z -> magnification_f pplStart pplEnd N = Err ZeroDivisionError.
Proof. exact (vanishing_design pplStart pplEnd N). Qed.
Print Assumptions C93_vanishing_design.
Example C93_vanishing_ex : exists lam0 lam, positive_double lam0 /\ positive_double lam /\ positive_double (fofZ 5) /\
  ordinary (fofZ 20) /\ ordinary (fofZ 8) /\ fval lam0 / fval lam <= bpow radix2 (-1075).
Proof. eexists _, _. exact vanishing_ex. Qed.
Example C93_vanishing_design_ex : is_finite fzero = true /\ fval fzero = 0 /\ positive_double (fofZ 5).
Proof. split; [reflexivity|]. split; [reflexivity|apply int_double; lia]. Qed.
