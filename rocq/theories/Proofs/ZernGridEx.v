(** A map with a dead central pixel, and fit_pupil_zernikes on grids. *)
From Coq Require Import ZArith Reals List Bool Lia Lra.
From Verif.Base Require Import Py Arr Vec Sums Lstsq.
From Verif.Model Require Import Math Noll Fits PupilFit.
From Verif.Spec Require Import MathSpec ZernikeSpec ZernGridSpec.
From Verif.Proofs Require Import NollP ZernP ZernGrid PupilFitZ.
Import ListNotations.
Open Scope Z_scope.

Definition dead7 : arr R := Arr 7 7 (fun i j => if (i =? 3) && (j =? 3) then 0%R else 1%R).
Lemma dead7_grid : has_grid dead7 4.
Proof.
  exists [0; 1; 2; 4; 5; 6], [0; 1; 2; 3; 4; 5; 6]. repeat split; try (cbn; lia).
  - repeat constructor; cbn; lia.
  - repeat constructor; cbn; lia.
  - cbn in H; lia.
  - cbn in H; cbn; lia.
  - cbn in H0; lia.
  - cbn in H0; cbn; lia.
  - cbn. destruct (Z.eqb_spec r 3); [cbn in H; lia|]. cbn. lra.
Qed.
Lemma noll15 : noll_index 15 4 4.
Proof. split; [lia|]. split; [exists 0; lia|]. right. split; [lia|]. right. reflexivity. Qed.
Lemma pupil_grid fit lstsq : is_lstsq_oracle lstsq -> forall wfe amp b n sel z a Zf d m,
  nc wfe = nr wfe -> 0 < nr wfe -> nr wfe <> 1000000 -> fit_pupil_zernikes fit lstsq wfe amp b n sel = Ok z ->
  is_mode_fun (z_diam z / 2) Zf ->
  noll_index (Z.max 3 n) d m -> has_grid (z_mask z) d ->
  (forall r c, used (z_mask z) r c -> at2 wfe r c = mode_comb (Z.max 3 n) Zf (z_x z) (z_y z) wfe a r c) ->
  (forall k, 0 <= k < Z.max 3 n -> vat (z_coefs z) k = a k) /\ (forall r c, used (z_mask z) r c -> at2 (z_res z) r c = 0%R).
Proof.
  intros L wfe amp b n sel z a Zf d m H1 H2 H3 E HZ HN G W. destruct (pz_ok fit lstsq _ _ _ _ _ _ H1 H2 H3 E) as (_ & _ & _ & _ & D & _).
  apply (pz_recovers fit lstsq L wfe amp b n sel z a Zf); auto. apply (indep (z_diam z / 2) Zf _ d m); auto. lra.
Qed.
