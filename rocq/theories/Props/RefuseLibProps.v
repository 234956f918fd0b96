(** C91: which arguments the numerical functions called directly refuse, and with which exception. *)
From Coq Require Import ZArith List String Reals Lra Lia.
From Coquelicot Require Import Complex.
From Verif.Base Require Import Py Arr.
From Verif.Model Require Import Fresnel Mft Noll Dm Fits PsfFit Conjugate.
From Verif.Spec Require Import RefuseSpec RefuseLibSpec.
From Verif.Proofs Require Import RefuseLib.
Import ListNotations.
Open Scope string_scope.
Open Scope Z_scope.

(** C91. The matrix Fourier transforms. *)
Theorem C91_mft : forall a sh ppl ppp e,
  (do_mft a sh ppl ppp = Err e <-> refused (mft_needs a sh ppl ppp) e) /\
  (do_imft a sh ppl ppp = Err e <-> refused (mft_needs a sh ppl ppp) e).
Proof. intros. split; [apply do_mft_refused|apply do_imft_refused]. Qed.
Print Assumptions C91_mft.
Theorem C91_offcenter_mft : forall a sh ppl ppp ps ll e, wf a ->
  (do_offcenter_mft a sh ppl ppp ps ll = Err e <-> refused (offcenter_needs a sh ppl ppp ps ll) e).
Proof. exact do_offcenter_refused. Qed.
Print Assumptions C91_offcenter_mft.
(** Free-space propagation. *)
Theorem C91_fresnelprop : forall a lam z nx ppm e, wf a ->
  (fresnelprop a lam z nx ppm = Err e <-> refused (fresnel_needs a lam z nx ppm) e).
Proof. exact fresnel_refused. Qed.
Print Assumptions C91_fresnelprop.
(** The influence function and the prefilter, for every spline. *)
Theorem C91_influence : forall spline2 k a b n m e,
  (resample_inf_func spline2 k a b = Err e <-> refused (resample_needs k a b) e) /\
  (build_prefilter spline2 n m k a = Err e <-> refused (prefilter_needs n m k a) e).
Proof. intros. split; [apply resample_refused|apply prefilter_refused]. Qed.
Print Assumptions C91_influence.
(** From a surface to the commands of a mirror, for every spline, solver and shape-preserving rotation. *)
Theorem C91_surface_to_command : forall ops s dm e, (forall a t, nr (co_rotate ops a t) = nr a /\ nc (co_rotate ops a t) = nc a) ->
  (conv_surf_to_dm_cmd ops s dm = Err e <->
   refused (conv_needs (nr s) (nc s) (c_pitch dm) (c_ppact_cx dm) (c_ppact_cy dm) (c_nact dm) (c_ppact_d dm) (c_inf dm)) e).
Proof. exact conv_refused. Qed.
Print Assumptions C91_surface_to_command.
Theorem C91_quadrants : forall a x y r e, quadrant_energy_balance a x y r = Err e <-> refused (quadrant_needs a x y r) e.
Proof. exact quadrant_refused. Qed.
Print Assumptions C91_quadrants.
Theorem C91_upsampled : forall a n f oy ox e, compute_upsampled_dft a n f oy ox = Err e <-> refused (upsampled_needs a f) e.
Proof. exact upsampled_refused. Qed.
Print Assumptions C91_upsampled.
(** Zernike maps, their sums, and the split of a wavefront into three of them. *)
Theorem C91_zernike_maps : forall x y p l e, xyzern x y p l = Err e <-> refused (xyzern_needs x y p l) e.
Proof. exact xyzern_refused. Qed.
Print Assumptions C91_zernike_maps.
Theorem C91_zernike_sum : forall inds cs xo yo d n e, gen_zernikes inds cs xo yo d n = Err e <-> refused (zernikes_needs inds cs d n) e.
Proof. exact zernikes_refused. Qed.
Print Assumptions C91_zernike_sum.
Theorem C91_split : forall (focus : bool) maxNoll cs d h w xo yo e, 0 < h -> 0 < w -> Z.max h w <> 1000000 ->
  (gen_split_wfe focus maxNoll cs d h w xo yo = Err e <-> refused (split_needs focus maxNoll d) e).
Proof. exact split_refused. Qed.
Print Assumptions C91_split.
Theorem C91_cost : forall al z a u e, phase_cost_function al z a u = Err e <-> refused (cost_needs al z a u) e.
Proof. exact cost_refused. Qed.
Print Assumptions C91_cost.

(** ** Cases *)
(** The sampling is looked at before the shape; a pupil image one row too long for its corner. *)
Definition img (n m : Z) : arr C := afull n m (RtoC 1).
Example C91_mft_order : do_mft (img 3 3) [2] 1 (-1) = Err TypeError /\ do_imft (img 0 3) [2; 2] 1 1 = Err TypeError.
Proof.
  split; apply C91_mft; unfold mft_needs; cbn [map].
  - apply refused_later; [lra|]. apply refused_here. lra.
  - do 2 (apply refused_later; [lra|]). apply refused_later; [exists 2, 2; split; [auto|lia]|]. apply refused_here. cbn. lia.
Qed.
Example C91_offcenter_over : do_offcenter_mft (img 3 2) [2; 2] 1 1 [5; 5] [3; 3] = Err ValueError.
Proof.
  apply C91_offcenter_mft; [split; cbn; lia|]. unfold offcenter_needs; cbn [map app].
  do 2 (apply refused_later; [lra|]). do 3 (apply refused_later; [do 2 eexists; split; [reflexivity|lia]|]).
  apply refused_here. cbn. lia.
Qed.
(** An image with no rows passes with any corner. *)
Example C91_offcenter_empty : exists o, do_offcenter_mft (img 0 2) [2; 2] 1 1 [5; 5] [9; 3] = Ok o.
Proof.
  destruct (do_offcenter_mft (img 0 2) [2; 2] 1 1 [5; 5] [9; 3]) as [o|e] eqn:E; [eauto|]. exfalso.
  apply C91_offcenter_mft in E; [|split; cbn; lia]. unfold offcenter_needs in E. cbn [map app] in E.
  rewrite !RefuseP.refused_iff, RefuseP.refused_nil in E. cbn in E.
  assert (T1 : two_at_least 1 [2; 2]) by (exists 2, 2; split; [auto|lia]). assert (T2 : two_at_least 1 [5; 5]) by (exists 5, 5; split; [auto|lia]).
  assert (T3 : two_at_least 0 [9; 3]) by (exists 9, 3; split; [auto|lia]).
  assert (P : (0 < 1)%R) by lra. assert (Q1 : 0 = 0 \/ 9 + 0 <= 5) by auto. assert (Q2 : 2 = 0 \/ 3 + 2 <= 5) by lia. tauto.
Qed.
(** Four modes with the focus split off leave none for the mirror; three leave no fourth coefficient. *)
Example C91_split_ex : gen_split_wfe true 4 [1%R] 3 5 5 0 0 = Err ValueError /\ gen_split_wfe true 3 [1%R] 3 5 5 0 0 = Err IndexError.
Proof.
  split; (apply C91_split; [lia|lia|cbn; lia|]); unfold split_needs; do 2 (apply refused_later; [lia || lra|]).
  - apply refused_later; [lia|]. apply refused_here. lia.
  - apply refused_here. intros Q. specialize (Q eq_refl). lia.
Qed.
Example C91_others : xyzern (afull 2 2 0%R) (afull 2 2 0%R) 1 [] = Err ValueError /\ gen_zernikes [0] [1%R] 0 0 1 4 = Err TypeError /\
  fresnelprop (img 4 3) 1 2 8 (3 / 2) = Err ValueError /\ quadrant_energy_balance (afull 2 5 1%R) 2 0 1 = Err ValueError /\
  compute_upsampled_dft (img 0 2) 3 1 0 0 = Err ZeroDivisionError /\ phase_cost_function (1/2) (afull 2 2 0%R) (afull 2 2 0%R) (afull 2 3 true) = Err ValueError.
Proof.
  repeat split.
  - apply C91_zernike_maps. unfold xyzern_needs. apply refused_later; [lra|]. apply refused_later; [auto|]. apply refused_later; [intros ? []|]. apply refused_here. auto.
  - apply C91_zernike_sum. unfold zernikes_needs. apply refused_later; [auto|]. apply refused_later; [lra|]. apply refused_later; [lia|]. apply refused_here.
    intros H. specialize (H 0 (or_introl eq_refl)). lia.
  - apply C91_fresnelprop; [split; cbn; lia|]. unfold fresnel_needs. apply refused_later; [lra|]. apply refused_later; [lia|]. apply refused_later; [lra|]. apply refused_here.
    cbn [img afull nr nc]. rewrite Rabs_pos_eq by lra. intros [H|H]; lra.
  - apply C91_quadrants. unfold quadrant_needs. apply refused_later; [lra|]. do 2 (apply refused_later; [lia|]). apply refused_here. cbn. lia.
  - apply C91_upsampled. unfold upsampled_needs. apply refused_later; [lra|]. apply refused_here. cbn. lia.
  - apply C91_cost. unfold cost_needs. cbn [map]. apply refused_later; [lra|]. apply refused_here. cbn. lia.
Qed.
(** A small influence function is refused only when it has to be resampled. *)
Example C91_small_influence : forall sp, resample_inf_func sp (afull 3 3 1%R) 2 1 = Err (Custom "fitpack") /\ resample_inf_func sp (afull 3 3 1%R) 2 2 = Ok (afull 3 3 1%R).
Proof.
  intros sp. split.
  - apply (C91_influence sp (afull 3 3 1%R) 2 1 1 1). unfold resample_needs. do 2 (apply refused_later; [lra|]). apply refused_here. cbn. intros [H|H]; [lra|lia].
  - unfold resample_inf_func. rewrite !guard_true by (apply FresnelP.pos_real_iff; lra). destruct (Req_EM_T 2 2); [auto|contradiction].
Qed.
