(** C51: phase unwrapping. *)
From Coq Require Import ZArith Bool List String Reals.
From Verif.Base Require Import Py Arr.
From Verif.Model Require Import Fits Unwrap.
From Verif.Spec Require Import UnwrapSpec.
From Verif.Proofs Require Import UnwrapP UnwrapEx UnwrapM.
Import ListNotations.
Open Scope Z_scope.

(** C51. Outside the mask in use the result is the fill value; inside, the phase plus whole turns. *)
Theorem C51_values : forall up small, is_unwrapper up -> is_remove_small small ->
  forall phase amplitude nbin fill min_size use_mask bMask p m,
  unwrap up small phase amplitude nbin fill min_size use_mask bMask = Ok (p, m) ->
  same_shape p phase = true /\ same_shape m phase = true /\ mask_used phase amplitude nbin min_size use_mask bMask m /\
  (forall i j, in_arr phase i j -> at2 m i j = false -> at2 p i j = fill) /\
  (forall i j, in_arr phase i j -> at2 m i j = true -> congruent (at2 phase i j) (at2 p i j)).
Proof. exact unwrap_ok. Qed.
Print Assumptions C51_values.
(** A field with steps below pi between neighbours in the mask is recovered, up to one number of whole turns for
    each connected region. *)
Theorem C51_recovers : forall up small, is_unwrapper up -> is_remove_small small ->
  forall phase amplitude nbin fill min_size use_mask bMask p m psi,
  unwrap up small phase amplitude nbin fill min_size use_mask bMask = Ok (p, m) ->
  gentle m psi -> wrapped_of m psi phase ->
  forall a, on m a -> exists k, forall b, joined m a b -> at2 p (fst b) (snd b) = (psi (fst b) (snd b) + 2 * PI * IZR k)%R.
Proof. exact unwrap_exact. Qed.
Print Assumptions C51_recovers.
Theorem C51_accepts : forall up small phase amplitude nbin fill min_size use_mask bMask,
  (exists r, unwrap up small phase amplitude nbin fill min_size use_mask bMask = Ok r) <->
  same_shape phase amplitude = true /\ (forall i j, in_arr amplitude i j -> (0 <= at2 amplitude i j)%R) /\
  3 <= nbin /\ 0 < min_size /\ (forall m, bMask = Some m -> same_shape m phase = true) /\
  (bMask = None -> use_mask = true -> exists t, ampthresh amplitude nbin = Ok t).
Proof. exact unwrap_accepts. Qed.
Print Assumptions C51_accepts.
Theorem C51_rejects : forall up small phase amplitude nbin fill min_size use_mask bMask e,
  unwrap up small phase amplitude nbin fill min_size use_mask bMask = Err e ->
  (e = TypeError /\ (same_shape phase amplitude = false \/ (exists i j, in_arr amplitude i j /\ (at2 amplitude i j < 0)%R) \/
     nbin <= 0 \/ min_size <= 0 \/ exists m, bMask = Some m /\ same_shape m phase = false)) \/
  (e = ValueError /\ (0 < nbin < 3 \/ (bMask = None /\ use_mask = true /\ ampthresh amplitude nbin = Err ValueError))).
Proof. exact unwrap_rejects. Qed.
Print Assumptions C51_rejects.
(** A wrapped ramp of 2 radians a pixel. *)
Example C51_example : forall up small, is_unwrapper up -> is_remove_small small -> forall use fill,
  exists p k, unwrap up small ramp ones14 21 fill 64 use (Some all14) = Ok (p, all14) /\
    forall j, 0 <= j < 4 -> at2 p 0 j = (2 * IZR j + 2 * PI * IZR k)%R.
Proof. exact ramp_ex. Qed.
(** The assumptions on the libraries can be met. *)
Example C51_libraries : is_unwrapper unwrap_ref /\ is_remove_small small_ref /\ is_nearest nearest_ref.
Proof. exact (conj unwrap_ref_ok (conj small_ref_ok nearest_ref_ok)). Qed.

(** C51. unwrap_segments: the same with the eroded mask. *)
Theorem C51_segments_values : forall up small, is_unwrapper up -> is_remove_small small ->
  forall nearest phase amplitude nbin fill min_size use_mask bMask selem p e,
  unwrap_segments up small nearest phase amplitude nbin fill min_size use_mask bMask selem = Ok (p, e) ->
  same_shape p phase = true /\ same_shape e phase = true /\
  (exists m, mask_used phase amplitude nbin min_size use_mask bMask m /\ same_shape m phase = true /\
     match selem with Some s => eroded m s e | None => e = m end) /\
  (exists a, on e a) /\
  (forall i j, in_arr phase i j -> at2 e i j = false -> at2 p i j = fill) /\
  (forall i j, in_arr phase i j -> at2 e i j = true -> congruent (at2 phase i j) (at2 p i j)).
Proof. exact segments_ok. Qed.
Print Assumptions C51_segments_values.
(** Separate segments come out with one and the same number of turns, when the field extended over the gaps by
    nearest mask pixels has no step of pi or more. *)
Theorem C51_segments_recovers : forall up small, is_unwrapper up -> is_remove_small small ->
  forall nearest, is_nearest nearest -> forall phase amplitude nbin fill min_size use_mask bMask selem p e psi,
  unwrap_segments up small nearest phase amplitude nbin fill min_size use_mask bMask selem = Ok (p, e) ->
  gentle_filled e psi -> wrapped_of e psi phase ->
  exists k, forall i j, on e (i, j) -> at2 p i j = (psi i j + 2 * PI * IZR k)%R.
Proof. exact segments_exact. Qed.
Print Assumptions C51_segments_recovers.
Theorem C51_segments_rejects : forall up small, is_remove_small small -> forall nearest phase amplitude nbin fill min_size use_mask bMask selem e,
  unwrap_segments up small nearest phase amplitude nbin fill min_size use_mask bMask selem = Err e ->
  (e = TypeError /\ (same_shape phase amplitude = false \/ (exists i j, in_arr amplitude i j /\ (at2 amplitude i j < 0)%R) \/
     nbin <= 0 \/ min_size <= 0 \/ exists m, bMask = Some m /\ same_shape m phase = false)) \/
  (e = ValueError /\ (0 < nbin < 3 \/ (bMask = None /\ use_mask = true /\ ampthresh amplitude nbin = Err ValueError) \/
     exists m d, mask_used phase amplitude nbin min_size use_mask bMask m /\ same_shape m phase = true /\
       match selem with Some s => eroded m s d | None => d = m end /\ forall i j, in_arr d i j -> at2 d i j = false)) \/
  (e = Custom "RuntimeError" /\ exists s, selem = Some s /\ (nr s <= 0 \/ nc s <= 0)).
Proof. exact segments_rejects. Qed.
Print Assumptions C51_segments_rejects.
(** Erosion by the default structure keeps the pixels with every pixel at most two edge steps away in the mask; no
    pixel is gained by a structure containing its centre. *)
Theorem C51_erosion_default : forall m e, binary_erosion m selem_default = Ok e -> nr e = nr m /\ nc e = nc m /\
  forall i j, in_arr m i j -> (at2 e i j = true <-> forall a b, Z.abs (a - i) + Z.abs (b - j) <= 2 -> on m (a, b)).
Proof. exact erosion_default. Qed.
Print Assumptions C51_erosion_default.
Theorem C51_erosion_subset : forall m s e, eroded m s e -> on s (nr s / 2, nc s / 2) -> forall p, on e p -> on m p.
Proof. exact eroded_subset. Qed.
Print Assumptions C51_erosion_subset.
(** Two segments of a row with a gap between them. *)
Example C51_segments_example : forall up small nearest, is_unwrapper up -> is_remove_small small -> is_nearest nearest -> forall use,
  exists p k, unwrap_segments up small nearest seg15 ones15 21 7 64 use (Some gap15) None = Ok (p, gap15) /\ at2 p 0 2 = 7%R /\
    forall j, 0 <= j < 5 -> j <> 2 -> at2 p 0 j = ((if j <? 2 then 2 * IZR j else 1 + IZR j) + 2 * PI * IZR k)%R.
Proof. exact seg_ex. Qed.

(** C51. A mask given as integers or reals counts as its non-zero entries when it is eroded. Without erosion only a
    boolean mask is possible. *)
Theorem C51_any_mask : forall up small, is_unwrapper up -> is_remove_small small ->
  forall nearest phase amplitude nbin fill min_size use_mask bMask selem p e,
  unwrap_segments_any up small nearest phase amplitude nbin fill min_size use_mask bMask selem = Ok (p, e) ->
  (selem = None -> forall k, bMask = Some k -> exists m, k = MBool m) /\
  same_shape p phase = true /\ same_shape e phase = true /\
  (exists m, same_shape m phase = true /\
     match bMask with
     | Some k => forall i j, in_arr phase i j -> (at2 m i j = true <->
         match k with MBool a => at2 a i j = true | MInt a => at2 a i j <> 0 | MFloat a => at2 a i j <> 0%R end)
     | None => mask_used phase amplitude nbin min_size use_mask None m
     end /\
     match selem with Some s => eroded m s e | None => e = m end) /\
  (forall i j, in_arr phase i j -> at2 e i j = false -> at2 p i j = fill) /\
  (forall i j, in_arr phase i j -> at2 e i j = true -> congruent (at2 phase i j) (at2 p i j)).
Proof. exact any_values. Qed.
Print Assumptions C51_any_mask.
(** C51. With everything else in order, a mask of numbers without erosion ends in an error. *)
Theorem C51_number_mask_unusable : forall up small nearest phase amplitude nbin fill min_size use_mask,
  same_shape phase amplitude = true -> (forall i j, in_arr amplitude i j -> (0 <= at2 amplitude i j)%R) -> 3 <= nbin -> 0 < min_size ->
  (forall a, same_shape a phase = true -> unwrap_segments_any up small nearest phase amplitude nbin fill min_size use_mask (Some (MFloat a)) None = Err IndexError) /\
  (forall a, same_shape a phase = true -> (forall i j, in_arr a i j -> - nr phase <= at2 a i j < nr phase) ->
     unwrap_segments_any up small nearest phase amplitude nbin fill min_size use_mask (Some (MInt a)) None = Err ValueError) /\
  (forall a i j, same_shape a phase = true -> in_arr a i j -> at2 a i j < - nr phase \/ nr phase <= at2 a i j ->
     unwrap_segments_any up small nearest phase amplitude nbin fill min_size use_mask (Some (MInt a)) None = Err IndexError).
Proof. exact any_refused. Qed.
Print Assumptions C51_number_mask_unusable.
