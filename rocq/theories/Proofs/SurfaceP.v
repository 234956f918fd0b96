(** find_optimum_2d on arbitrary data. *)
From Coq Require Import ZArith Bool List Reals Lra Lia String.
From Verif.Base Require Import Py Arr Vec Sums Lstsq.
From Verif.Model Require Import Noll Fits.
From Verif.Spec Require Import FitsSpec SurfaceSpec.
From Verif.Proofs Require Import FitsP.
Import ListNotations.
Open Scope Z_scope.

Lemma sse_misfit xs ys arr mask c :
  sse (nonzero_points mask) 6 (quad_basis xs ys) (fun p => at2 arr (fst p) (snd p)) c =
  surface_misfit xs ys arr mask (c 0) (c 1) (c 2) (c 3) (c 4) (c 5).
Proof.
  unfold sse, surface_misfit. rewrite <- masked_lsum. apply lsum_ext. intros p _. rewrite quad_fitted. reflexivity.
Qed.
Lemma best_lstsq xs ys arr mask a b c d e f : best_surface xs ys arr mask a b c d e f ->
  is_lstsq (nonzero_points mask) 6 (quad_basis xs ys) (fun p => at2 arr (fst p) (snd p)) (c6 a b c d e f).
Proof. intros B q. rewrite !sse_misfit. apply B. Qed.
Lemma best_surface_exists xs ys arr mask : exists a b c d e f, best_surface xs ys arr mask a b c d e f.
Proof.
  set (q := lstsq_ref (nonzero_points mask) 6 (quad_basis xs ys) (fun p => at2 arr (fst p) (snd p))).
  assert (L : is_lstsq (nonzero_points mask) 6 (quad_basis xs ys) (fun p => at2 arr (fst p) (snd p)) q) by apply lstsq_ref_ok.
  exists (q 0), (q 1), (q 2), (q 3), (q 4), (q 5). intros a b c d e f.
  rewrite <- sse_misfit. specialize (L (c6 a b c d e f)). rewrite (sse_misfit xs ys arr mask (c6 a b c d e f)) in L. exact L.
Qed.
Lemma opt2_general lstsq xs ys arr mask a b c d e f : is_lstsq_oracle lstsq ->
  same_shape arr mask = true -> nr arr = vlen ys -> nc arr = vlen xs -> bool_mask mask -> unisolvent2 xs ys mask ->
  best_surface xs ys arr mask a b c d e f ->
  find_optimum_2d lstsq xs ys arr mask =
    if Rlt_dec (Rabs (b ^ 2 - 4 * a * c)) (4 * / 10 ^ 15) then Err (Custom "QuadraticException")
    else if Rlt_dec (Rabs (2 * c)) (2 * / 10 ^ 15) then Err (Custom "QuadraticException")
    else Ok ((2 * c * d - b * e) / (b ^ 2 - 4 * a * c), (2 * a * e - b * d) / (b ^ 2 - 4 * a * c))%R.
Proof.
  intros O S Hr Hc B U M. unfold find_optimum_2d. rewrite S, Hr, Hc, !Z.eqb_refl.
  rewrite (proj1 (bool_mask_count _ B)). unfold reshape_ok. rewrite Z.eqb_refl. cbn [guard bind orb].
  set (q := lstsq _ _ _ _).
  assert (P : forall k, 0 <= k < 6 -> q k = c6 a b c d e f k).
  { intros k Hk. assert (Z0 : (q k - c6 a b c d e f k = 0)%R); [|lra].
    apply (quad_independent xs ys mask U (fun k => q k - c6 a b c d e f k)%R); [|exact Hk]. intros p Hp. rewrite fitted_sub.
    rewrite (lstsq_fitted_unique (nonzero_points mask) 6 (quad_basis xs ys) (fun p => at2 arr (fst p) (snd p)) q (c6 a b c d e f)
      (O _ _ _ _) (best_lstsq _ _ _ _ _ _ _ _ _ _ M) p Hp). ring. }
  rewrite (P 0), (P 1), (P 2), (P 3), (P 4) by lia. cbn [c6]. unfold Rltb, resolution.
  replace (b * b - 4 * a * c)%R with (b ^ 2 - 4 * a * c)%R by ring.
  destruct (Rlt_dec (Rabs (b ^ 2 - 4 * a * c)) _) as [|N1]; [reflexivity|].
  destruct (Rlt_dec (Rabs (2 * c)) _) as [|N2]; [reflexivity|]. cbn [orb negb guard bind].
  assert (K : (0 < / 10 ^ 15)%R) by (apply Rinv_0_lt_compat, pow_lt; lra).
  assert (b ^ 2 - 4 * a * c <> 0)%R by (intros Q; rewrite Q, Rabs_R0 in N1; lra).
  assert (c <> 0)%R by (intros Q; rewrite Q, Rmult_0_r, Rabs_R0 in N2; lra).
  apply f_equal. f_equal; field; auto.
Qed.
