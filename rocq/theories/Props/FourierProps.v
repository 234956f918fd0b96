(** Properties C14-C19: FFT wrappers, Fresnel propagation, matrix Fourier transforms. *)
From Coq Require Import ZArith Bool List Reals Lra Lia.
From Coquelicot Require Import Complex.
From Verif.Base Require Import Py Arr Sums CSum.
From Verif.Model Require Import PadCrop Fresnel Mft.
From Verif.Spec Require Import FresnelSpec MftSpec.
From Verif.Proofs Require Import FresnelP MftP.
Import ListNotations.
Open Scope Z_scope.

(** C14. do_fft is the spectrum with both origins at pixel n//2, for every non-empty array. *)
Theorem C14_do_fft_is_centred_spectrum : forall e : arr C, 0 < nr e -> 0 < nc e ->
  exists o, do_fft e = Ok o /\ nr o = nr e /\ nc o = nc e /\ forall k l, at2 o k l = spectrum e k l.
Proof. exact do_fft_ok. Qed.
Print Assumptions C14_do_fft_is_centred_spectrum.
Theorem C14_ifft_of_fft : forall e f g : arr C, do_fft e = Ok f -> do_ifft f = Ok g -> aeq g e.
Proof. exact ifft_fft. Qed.
Print Assumptions C14_ifft_of_fft.
Theorem C14_fft_of_ifft : forall e f g : arr C, do_ifft e = Ok f -> do_fft f = Ok g -> aeq g e.
Proof. exact fft_ifft. Qed.
Print Assumptions C14_fft_of_ifft.
(** C14. Both always succeed on non-empty arrays (so the two theorems above apply) and only there. *)
Theorem C14_defined : forall e : arr C,
  (0 < nr e -> 0 < nc e -> exists f, do_fft e = Ok f /\ nr f = nr e /\ nc f = nc e) /\
  (0 < nr e -> 0 < nc e -> exists f, do_ifft e = Ok f /\ nr f = nr e /\ nc f = nc e) /\
  (~ (0 < nr e /\ 0 < nc e) -> do_fft e = Err ValueError /\ do_ifft e = Err ValueError).
Proof. exact fft_defined. Qed.
Print Assumptions C14_defined.
Theorem C14_centre_pixel_is_sum : forall e f : arr C, do_fft e = Ok f ->
  at2 f (nr e / 2) (nc e / 2) = csum2 (at2 e) (nr e) (nc e).
Proof. exact fft_centre. Qed.
Print Assumptions C14_centre_pixel_is_sum.
Theorem C14_parseval : forall e f : arr C, do_fft e = Ok f ->
  energy f = (IZR (nr e) * IZR (nc e) * energy e)%R.
Proof. exact fft_parseval. Qed.
Print Assumptions C14_parseval.
Example C14_ex : exists f, do_fft (afull 3 4 (RtoC 1)) = Ok f /\ nr f = 3 /\ nc f = 4.
Proof. apply fft_defined; reflexivity. Qed.

(** C15. Distance 0 returns the field itself, whatever the sampling. *)
Theorem C15_zero_distance : forall e lam nx ppm, (0 < lam)%R -> 0 < nx -> (0 < ppm)%R ->
  fresnelprop e lam 0 nx ppm = Ok e.
Proof. exact fresnelprop_zero. Qed.
Print Assumptions C15_zero_distance.
(** C15. For other distances: pad to the grid, multiply the spectrum by exp(-i pi lam z R^2), crop. *)
Theorem C15_transfer_function : forall e lam z nx ppm out, wf e ->
  fresnelprop e lam z nx ppm = Ok out -> z <> 0%R ->
  exists u v, pad_crop e [nx; nx] (RtoC 0) = Ok u /\ pad_crop v [nr e; nc e] (RtoC 0) = Ok out /\
    nr v = nx /\ nc v = nx /\ energy v = energy u /\
    forall k l, 0 <= k < nx -> 0 <= l < nx ->
      spectrum v k l = (spectrum u k l * fresnel_transfer lam z ppm nx k l)%C.
Proof. exact fresnelprop_spec. Qed.
Print Assumptions C15_transfer_function.
Theorem C15_compose : forall e lam z1 z2 ppm f g h, 0 < nr e -> nc e = nr e ->
  fresnelprop e lam z1 (nr e) ppm = Ok f -> fresnelprop f lam z2 (nr e) ppm = Ok g ->
  fresnelprop e lam (z1 + z2) (nr e) ppm = Ok h -> aeq g h.
Proof. exact fresnelprop_compose. Qed.
Print Assumptions C15_compose.
Theorem C15_inverse : forall e lam z ppm f, 0 < nr e -> nc e = nr e ->
  fresnelprop e lam z (nr e) ppm = Ok f ->
  exists g, fresnelprop f lam (- z) (nr e) ppm = Ok g /\ aeq g e.
Proof. exact fresnelprop_inverse. Qed.
Print Assumptions C15_inverse.
Theorem C15_defined : forall e lam z nx ppm, wf e -> (0 < lam)%R -> 0 < nx -> (0 < ppm)%R ->
  (z = 0%R \/ (lam * Rabs z * ppm ^ 2 <= IZR (Z.min (nr e) (nc e)))%R) ->
  exists out, fresnelprop e lam z nx ppm = Ok out /\ nr out = nr e /\ nc out = nc e.
Proof. exact fresnelprop_defined. Qed.
Print Assumptions C15_defined.
Theorem C15_errors : forall e lam z nx ppm ex, wf e -> fresnelprop e lam z nx ppm = Err ex ->
  (ex = TypeError /\ ((lam <= 0)%R \/ nx <= 0 \/ (ppm <= 0)%R)) \/
  (ex = ValueError /\ z <> 0%R /\ (IZR (Z.min (nr e) (nc e)) < lam * Rabs z * ppm ^ 2)%R).
Proof. exact fresnelprop_errors. Qed.
Print Assumptions C15_errors.
Example C15_ex : exists out, fresnelprop (afull 4 4 (RtoC 1)) 1 (-2) 4 1 = Ok out /\ nr out = 4 /\ nc out = 4.
Proof.
  apply (fresnelprop_defined (afull 4 4 (RtoC 1))); try lra; try lia; [split; cbn; lia|]. right. cbn.
  rewrite Rabs_left by lra. lra.
Qed.

(** C16. The returned field never has more energy than the input, whatever the grid size... *)
Theorem C16_energy_never_grows : forall e lam z nx ppm out, wf e ->
  fresnelprop e lam z nx ppm = Ok out -> (energy out <= energy e)%R.
Proof. exact fresnelprop_energy_le. Qed.
Print Assumptions C16_energy_never_grows.
(** ...and before the final crop, on a grid no smaller than the field, it has exactly the same energy. *)
Theorem C16_energy_conserved_on_grid : forall e lam z nx ppm out, wf e -> nr e <= nx -> nc e <= nx ->
  fresnelprop e lam z nx ppm = Ok out -> z <> 0%R ->
  exists v, nr v = nx /\ nc v = nx /\ energy v = energy e /\ pad_crop v [nr e; nc e] (RtoC 0) = Ok out.
Proof. exact fresnelprop_energy_grid. Qed.
Print Assumptions C16_energy_conserved_on_grid.
Theorem C16_energy_conserved_square : forall e lam z ppm out, 0 < nr e -> nc e = nr e ->
  fresnelprop e lam z (nr e) ppm = Ok out -> energy out = energy e.
Proof. exact fresnelprop_square_energy. Qed.
Print Assumptions C16_energy_conserved_square.

(** C17. The two-step path returns exactly the same field whenever the grid is at least the smaller side
    of the field (get_fp then accepts whatever fresnelprop accepts)... *)
Theorem C17_two_step : forall e lam z nx ppm out, Z.min (nr e) (nc e) <= nx ->
  fresnelprop e lam z nx ppm = Ok out ->
  exists fp, get_fp lam z nx ppm = Ok fp /\ fresnelprop_fp e z nx fp = Ok out.
Proof. exact fresnelprop_two_step. Qed.
Print Assumptions C17_two_step.
(** ...and in any case whenever both paths return. *)
Theorem C17_agree : forall e lam z nx ppm out fp out',
  fresnelprop e lam z nx ppm = Ok out -> get_fp lam z nx ppm = Ok fp ->
  fresnelprop_fp e z nx fp = Ok out' -> out' = out.
Proof. exact fresnelprop_agree. Qed.
Print Assumptions C17_agree.
Theorem C17_linear : forall a b e1 e2 lam z nx ppm f1 f2, wf e1 -> nr e1 = nr e2 -> nc e1 = nc e2 ->
  fresnelprop e1 lam z nx ppm = Ok f1 -> fresnelprop e2 lam z nx ppm = Ok f2 ->
  exists f, fresnelprop (lin_comb a b e1 e2) lam z nx ppm = Ok f /\ aeq f (lin_comb a b f1 f2).
Proof. exact fresnelprop_linear. Qed.
Print Assumptions C17_linear.

(** C18. do_mft is the Riemann sum of the Fourier integral, for every shape. *)
Theorem C18_mft_value : forall e h w ppl ppp,
  0 < nr e -> 0 < nc e -> 0 < h -> 0 < w -> (0 < ppl)%R -> (0 < ppp)%R ->
  exists o, do_mft e [h; w] ppl ppp = Ok o /\ nr o = h /\ nc o = w /\
  forall u v, at2 o u v = fourier_sum (-1) e ppp ppl h w u v.
Proof. exact do_mft_ok. Qed.
Print Assumptions C18_mft_value.
Theorem C18_offcenter_is_embedding : forall e h w ppl ppp H W y0 x0, wf e ->
  0 < h -> 0 < w -> (0 < ppl)%R -> (0 < ppp)%R -> 0 < H -> 0 < W ->
  0 <= y0 -> y0 + nr e <= H -> 0 <= x0 -> x0 + nc e <= W ->
  exists o o', do_offcenter_mft e [h; w] ppl ppp [H; W] [y0; x0] = Ok o /\
    do_mft (embed e H W y0 x0) [h; w] ppl ppp = Ok o' /\ aeq o o'.
Proof. exact offcenter_embed. Qed.
Print Assumptions C18_offcenter_is_embedding.
(** C18. A field that does not fit is refused, never silently truncated. *)
Theorem C18_offcenter_misfit_refused : forall e h w ppl ppp H W y0 x0, 0 < nr e -> 0 < nc e ->
  0 < h -> 0 < w -> (0 < ppl)%R -> (0 < ppp)%R -> 0 < H -> 0 < W -> 0 <= y0 -> 0 <= x0 ->
  H < y0 + nr e \/ W < x0 + nc e ->
  do_offcenter_mft e [h; w] ppl ppp [H; W] [y0; x0] = Err ValueError.
Proof. exact offcenter_misfit. Qed.
Print Assumptions C18_offcenter_misfit_refused.
Theorem C18_shift_is_phase : forall e h w ppl ppp H W y0 x0 y1 x1 o o', wf e ->
  0 < h -> 0 < w -> (0 < ppl)%R -> (0 < ppp)%R -> 0 < H -> 0 < W ->
  0 <= y0 -> y0 + nr e <= H -> 0 <= x0 -> x0 + nc e <= W ->
  0 <= y1 -> y1 + nr e <= H -> 0 <= x1 -> x1 + nc e <= W ->
  do_offcenter_mft e [h; w] ppl ppp [H; W] [y0; x0] = Ok o ->
  do_offcenter_mft e [h; w] ppl ppp [H; W] [y1; x1] = Ok o' ->
  forall u v, in_arr o u v -> at2 o' u v = (at2 o u v *
    cis (- (2 * PI * (IZR (u - h / 2) * IZR (y1 - y0) + IZR (v - w / 2) * IZR (x1 - x0)) / (ppl * ppp))))%C.
Proof. exact offcenter_shift. Qed.
Print Assumptions C18_shift_is_phase.
Theorem C18_linear : forall a b e1 e2 h w ppl ppp o1 o2,
  0 < nr e1 -> 0 < nc e1 -> nr e1 = nr e2 -> nc e1 = nc e2 ->
  do_mft e1 [h; w] ppl ppp = Ok o1 -> do_mft e2 [h; w] ppl ppp = Ok o2 ->
  exists o, do_mft (lin_comb a b e1 e2) [h; w] ppl ppp = Ok o /\ aeq o (lin_comb a b o1 o2).
Proof. exact mft_linear. Qed.
Print Assumptions C18_linear.
Theorem C18_errors : forall e sh ppl ppp ex, wf e -> do_mft e sh ppl ppp = Err ex ->
  ex = TypeError /\ ((ppl <= 0)%R \/ (ppp <= 0)%R \/ nr e = 0 \/ nc e = 0 \/
     ~ exists h w, sh = [h; w] /\ 0 < h /\ 0 < w).
Proof. exact do_mft_errors. Qed.
Print Assumptions C18_errors.
Example C18_ex : exists o o', do_offcenter_mft (afull 2 3 (RtoC 1)) [5; 4] 2 3 [6; 6] [1; 3] = Ok o /\
    do_mft (embed (afull 2 3 (RtoC 1)) 6 6 1 3) [5; 4] 2 3 = Ok o' /\ aeq o o'.
Proof. apply offcenter_embed; cbn; try lia; try lra. split; cbn; lia. Qed.

(** C19. Inverse at critical sampling N = pixperlod * pixperpupil. *)
Theorem C19_imft_inverts_mft : forall e N ppl ppp f, wf e ->
  (0 < ppl)%R -> (0 < ppp)%R -> IZR N = (ppl * ppp)%R -> nr e <= N -> nc e <= N ->
  do_mft e [N; N] ppl ppp = Ok f ->
  exists g, do_imft f [nr e; nc e] ppl ppp = Ok g /\ aeq g e.
Proof. exact imft_mft. Qed.
Print Assumptions C19_imft_inverts_mft.
Theorem C19_imft_value : forall e h w ppl ppp,
  0 < nr e -> 0 < nc e -> 0 < h -> 0 < w -> (0 < ppl)%R -> (0 < ppp)%R ->
  exists o, do_imft e [h; w] ppl ppp = Ok o /\ nr o = h /\ nc o = w /\
  forall u v, at2 o u v = fourier_sum 1 e ppl ppp h w u v.
Proof. exact do_imft_ok. Qed.
Print Assumptions C19_imft_value.
Example C19_ex : exists f g, do_mft (afull 3 4 (RtoC 1)) [6; 6] (3 / 2) 4 = Ok f /\
  do_imft f [3; 4] (3 / 2) 4 = Ok g /\ aeq g (afull 3 4 (RtoC 1)).
Proof.
  destruct (do_mft_ok (afull 3 4 (RtoC 1)) 6 6 (3 / 2) 4) as (f & E & _); cbn; try lia; try lra.
  destruct (imft_mft (afull 3 4 (RtoC 1)) 6 (3 / 2) 4 f) as (g & E' & Q); cbn; try lia; try lra; auto.
  { split; cbn; lia. } exists f, g. auto.
Qed.
