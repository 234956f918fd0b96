(** Property C85: on a grid of usable pixels the Zernike fit has exactly one answer. *)
From Coq Require Import ZArith Reals List.
From Verif.Base Require Import Py Arr Vec Sums Lstsq.
From Verif.Model Require Import Math Noll PupilFit.
From Verif.Spec Require Import MathSpec ZernikeSpec ZernGridSpec.
From Verif.Proofs Require Import ZernGrid ZernGridEx.
Import ListNotations.
Open Scope Z_scope.

(** C85. Modes up to radial order [d] are independent on any mask in which more than [d] rows and more than [d]
    columns meet in usable pixels, wherever the beam lies and however large it is. *)
Theorem C85_independent : forall prad Zf maxNoll d m dx dy wfe usable, (0 < prad)%R -> is_mode_fun prad Zf ->
  noll_index maxNoll d m -> has_grid usable d -> modes_independent maxNoll Zf dx dy wfe usable.
Proof. exact indep. Qed.
Print Assumptions C85_independent.
(** C85. On such a mask fit_zernikes returns the one vector of coefficients whose residual is orthogonal to every
    mode, whatever least-squares solver is used. *)
Theorem C85_fit_unique : forall usable maxNoll d m nBeam dx dy, (0 < nBeam)%R -> noll_index maxNoll d m -> has_grid usable d ->
  forall Zf, is_mode_fun (nBeam / 2) Zf ->
  forall lstsq wfe, is_lstsq_oracle lstsq -> nr wfe = nr usable -> nc wfe = nc usable ->
  exists v, fit_zernikes lstsq wfe usable maxNoll nBeam dx dy = Ok v /\
  forall a, (forall k, 0 <= k < maxNoll ->
      usable_sum usable (fun r c => mode_at Zf dx dy wfe (k + 1) r c * (at2 wfe r c - mode_comb maxNoll Zf dx dy wfe a r c))%R = 0%R) <->
    (forall k, 0 <= k < maxNoll -> a k = v k).
Proof. exact grid_fit_unique. Qed.
Print Assumptions C85_fit_unique.
(** C85. A map made of the fitted modes gives their coefficients back. *)
Theorem C85_fit_recovers : forall usable maxNoll d m nBeam dx dy, (0 < nBeam)%R -> noll_index maxNoll d m -> has_grid usable d ->
  forall Zf, is_mode_fun (nBeam / 2) Zf ->
  forall lstsq wfe a, is_lstsq_oracle lstsq -> nr wfe = nr usable -> nc wfe = nc usable ->
  (forall r c, used usable r c -> at2 wfe r c = mode_comb maxNoll Zf dx dy wfe a r c) ->
  exists v, fit_zernikes lstsq wfe usable maxNoll nBeam dx dy = Ok v /\ forall k, 0 <= k < maxNoll -> v k = a k.
Proof. exact grid_fit_recovers. Qed.
Print Assumptions C85_fit_recovers.
(** C85. The coefficients are linear in the map. *)
Theorem C85_fit_linear : forall usable maxNoll d m nBeam dx dy, (0 < nBeam)%R -> noll_index maxNoll d m -> has_grid usable d ->
  forall Zf, is_mode_fun (nBeam / 2) Zf ->
  forall lstsq lstsq1 lstsq2 w w1 w2 v v1 v2 s t,
  is_lstsq_oracle lstsq -> is_lstsq_oracle lstsq1 -> is_lstsq_oracle lstsq2 ->
  (forall r c, used usable r c -> at2 w r c = s * at2 w1 r c + t * at2 w2 r c)%R ->
  fit_zernikes lstsq w usable maxNoll nBeam dx dy = Ok v ->
  fit_zernikes lstsq1 w1 usable maxNoll nBeam dx dy = Ok v1 ->
  fit_zernikes lstsq2 w2 usable maxNoll nBeam dx dy = Ok v2 ->
  forall k, 0 <= k < maxNoll -> v k = (s * v1 k + t * v2 k)%R.
Proof. exact grid_fit_linear. Qed.
Print Assumptions C85_fit_linear.
(** C85. fit_pupil_zernikes on such a mask: the coefficients of the modes and nothing left over. *)
Theorem C85_pupil_fit : forall fit lstsq, is_lstsq_oracle lstsq -> forall wfe amp b n sel z a Zf d m,
  nc wfe = nr wfe -> 0 < nr wfe -> nr wfe <> 1000000 -> fit_pupil_zernikes fit lstsq wfe amp b n sel = Ok z ->
  is_mode_fun (z_diam z / 2) Zf -> noll_index (Z.max 3 n) d m -> has_grid (z_mask z) d ->
  (forall r c, used (z_mask z) r c -> at2 wfe r c = mode_comb (Z.max 3 n) Zf (z_x z) (z_y z) wfe a r c) ->
  (forall k, 0 <= k < Z.max 3 n -> vat (z_coefs z) k = a k) /\ (forall r c, used (z_mask z) r c -> at2 (z_res z) r c = 0%R).
Proof. exact pupil_grid. Qed.
Print Assumptions C85_pupil_fit.
(** Fifteen modes (orders up to 4) on a 7 by 7 map with a dead central pixel. *)
Example C85_ex : noll_index 15 4 4 /\ has_grid dead7 4.
Proof. exact (conj noll15 dead7_grid). Qed.
