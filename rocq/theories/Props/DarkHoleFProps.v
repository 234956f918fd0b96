(** C96: rectangles and annuli of the dark hole in double precision. *)
From Coq Require Import ZArith Reals Bool Lia Lra.
From Flocq Require Import Core BinarySingleNaN.
From Verif.Base Require Import Py Arr F64.
From Verif.Model Require Import ShapesF DarkHoleF.
From Verif.Spec Require Import ShapesSpec DarkHoleSpec ShapesFSpec DarkHoleFSpec.
From Verif.Proofs Require Import F64P DarkHoleFP DarkHoleFEx.
Local Open Scope R_scope.

(** Lengths that are multiples of 2^-t pixels: no pixel is misplaced by rounding, not even on the rim. *)
Theorem C96_annulus_exact t n m xo yo ri ro : grid_size t n m -> grid_length t xo -> grid_length t yo ->
  grid_length t ri -> grid_length t ro -> 0 <= fval ri <= fval ro ->
  exists a, gen_annulus_f n m xo yo ri ro = Ok a /\ good n m a (Annulus (fval xo) (fval yo) (fval ri) (fval ro)).
Proof. exact (annulus_exact t n m xo yo ri ro). Qed.
Print Assumptions C96_annulus_exact.
Theorem C96_rectangle_exact t n m xo yo w h : grid_size t n m -> grid_length t xo -> grid_length t yo ->
  grid_length t w -> grid_length t h -> 0 < fval w -> 0 < fval h ->
  exists a, gen_rectangle_f n m xo yo w h = Ok a /\ good n m a (Rectangle (fval xo) (fval yo) (fval w) (fval h)).
Proof. exact (rectangle_exact t n m xo yo w h). Qed.
Print Assumptions C96_rectangle_exact.
(** Any other doubles: only pixels whose distance from a rim is below 2^(k-47) pixels can be misplaced. *)
Theorem C96_annulus_near k n m xo yo ri ro : frame_upto k n m xo yo ->
  is_finite ri = true -> is_finite ro = true -> 0 <= fval ri <= fval ro ->
  exists a, gen_annulus_f n m xo yo ri ro = Ok a /\ nr a = n /\ nc a = m /\
  forall i j, (0 <= i < n)%Z -> (0 <= j < m)%Z -> let d := distance (fval xo) (fval yo) (px m 0 j) (px n 0 i) in
    (at2 a i j = true -> fval ri - bpow radix2 (k - 47) <= d <= fval ro + bpow radix2 (k - 47)) /\
    (fval ri + bpow radix2 (k - 47) <= d <= fval ro - bpow radix2 (k - 47) -> at2 a i j = true).
Proof. exact (annulus_near k n m xo yo ri ro). Qed.
Print Assumptions C96_annulus_near.
(** A rectangle loses no pixel, and gains one only within half of 2^(k-51) pixels of its border. *)
Theorem C96_rectangle_near k n m xo yo w h : frame_upto k n m xo yo ->
  is_finite w = true -> is_finite h = true -> bpow radix2 (-1000) <= fval w -> bpow radix2 (-1000) <= fval h ->
  exists a, gen_rectangle_f n m xo yo w h = Ok a /\ nr a = n /\ nc a = m /\
  forall i j, (0 <= i < n)%Z -> (0 <= j < m)%Z ->
    (in_shape (Rectangle (fval xo) (fval yo) (fval w) (fval h)) (px m 0 j) (px n 0 i) -> at2 a i j = true) /\
    (at2 a i j = true -> in_shape (Rectangle (fval xo) (fval yo) (fval w + bpow radix2 (k - 51)) (fval h + bpow radix2 (k - 51))) (px m 0 j) (px n 0 i)).
Proof. exact (rectangle_near k n m xo yo w h). Qed.
Print Assumptions C96_rectangle_near.
(** The tolerance is needed: with an inner radius of sqrt(2), rounded, a pixel below the radius is kept. *)
Theorem C96_tie : exists n m xo yo ri ro a i j,
  frame_upto 4 n m xo yo /\ double_within 4 ri /\ double_within 4 ro /\ 0 <= fval ri <= fval ro /\
  gen_annulus_f n m xo yo ri ro = Ok a /\ in_arr a i j /\ at2 a i j = true /\
  ~ in_shape (Annulus (fval xo) (fval yo) (fval ri) (fval ro)) (px m 0 j) (px n 0 i).
Proof. exact annulus_tie. Qed.
Print Assumptions C96_tie.
Theorem C96_rectangle_rejects n m xo yo w h : (n <= 0)%Z \/ (m <= 0)%Z \/ fle w fzero = true \/ fle h fzero = true ->
  gen_rectangle_f n m xo yo w h = Err TypeError.
Proof. exact (rectangle_err n m xo yo w h). Qed.
Print Assumptions C96_rectangle_rejects.
Theorem C96_annulus_rejects n m xo yo ri ro :
  ((n <= 0)%Z \/ (m <= 0)%Z \/ flt ri fzero = true \/ flt ro fzero = true -> gen_annulus_f n m xo yo ri ro = Err TypeError) /\
  ((0 < n)%Z -> (0 < m)%Z -> flt ri fzero = false -> flt ro fzero = false -> flt ro ri = true -> gen_annulus_f n m xo yo ri ro = Err ValueError).
Proof. exact (annulus_err n m xo yo ri ro). Qed.
Print Assumptions C96_annulus_rejects.
(** An outer radius that is not a number is accepted and gives an empty mask. *)
Theorem C96_nan_radius n m xo yo ri : (0 < n)%Z -> (0 < m)%Z -> flt ri fzero = false ->
  exists a, gen_annulus_f n m xo yo ri fnan = Ok a /\ nr a = n /\ nc a = m /\ forall i j, at2 a i j = false.
Proof. exact (annulus_nan n m xo yo ri). Qed.
Print Assumptions C96_nan_radius.

(** Quarter-pixel offsets and radii: a pixel 3 to the right of and 4 above the centre lies on the rim of radius 5 and is kept;
    the next pixel to the right is not. *)
Example C96_ex : exists a, gen_annulus_f 40 41 (fdiv (fofZ 8) (fofZ 4)) (fdiv (fofZ (-4)) (fofZ 4)) (fdiv (fofZ 9) (fofZ 4)) (fdiv (fofZ 20) (fofZ 4)) = Ok a /\
  good 40 41 a (Annulus 2 (-1) (9 / 4) 5) /\ at2 a 23 25 = true /\ at2 a 23 26 = false.
Proof.
  destruct (quarter_ok 8 ltac:(lia)) as [V1 G1]. destruct (quarter_ok (-4) ltac:(lia)) as [V2 G2].
  destruct (quarter_ok 9 ltac:(lia)) as [V3 G3]. destruct (quarter_ok 20 ltac:(lia)) as [V4 G4].
  destruct (C96_annulus_exact 2 40 41 _ _ _ _ ltac:(unfold grid_size; lia) G1 G2 G3 G4) as (a & E & G); [rewrite V3, V4; lra|].
  exists a. split; [exact E|].
  replace (fval (fdiv (fofZ 8) (fofZ 4))) with 2 in G by lra. replace (fval (fdiv (fofZ (-4)) (fofZ 4))) with (-1) in G by lra.
  replace (fval (fdiv (fofZ 9) (fofZ 4))) with (9 / 4) in G by lra. replace (fval (fdiv (fofZ 20) (fofZ 4))) with 5 in G by lra.
  split; [exact G|]. destruct G as (_ & _ & G). split.
  - apply G; try lia. cbn [in_shape]. unfold annulus_set, px. change (25 - 41 / 2)%Z with 5%Z. change (23 - 40 / 2)%Z with 3%Z. split; cbn [pow]; lra.
  - apply Bool.not_true_iff_false. rewrite G by lia. cbn [in_shape]. unfold annulus_set, px. change (26 - 41 / 2)%Z with 6%Z.
    change (23 - 40 / 2)%Z with 3%Z. intros [_ A]. cbn [pow] in A. lra.
Qed.
Example C96_ex_rectangle : exists a, gen_rectangle_f 40 41 (fdiv (fofZ 2) (fofZ 4)) (fdiv (fofZ (-4)) (fofZ 4)) (fdiv (fofZ 12) (fofZ 4)) (fdiv (fofZ 9) (fofZ 4)) = Ok a /\
  at2 a 19 22 = true /\ at2 a 19 23 = false.
Proof.
  destruct (quarter_ok 2 ltac:(lia)) as [V1 G1]. destruct (quarter_ok (-4) ltac:(lia)) as [V2 G2].
  destruct (quarter_ok 12 ltac:(lia)) as [V3 G3]. destruct (quarter_ok 9 ltac:(lia)) as [V4 G4].
  destruct (C96_rectangle_exact 2 40 41 _ _ _ _ ltac:(unfold grid_size; lia) G1 G2 G3 G4) as (a & E & _ & _ & G); [rewrite V3; lra|rewrite V4; lra|].
  exists a. split; [exact E|]. split.
  - apply G; try lia. cbn [in_shape]. rewrite V1, V2, V3, V4. unfold px. change (22 - 41 / 2)%Z with 2%Z. change (19 - 40 / 2)%Z with (-1)%Z. split; apply Rabs_le; lra.
  - apply Bool.not_true_iff_false. rewrite G by lia. cbn [in_shape]. rewrite V1, V2, V3, V4. unfold px. change (23 - 41 / 2)%Z with 3%Z.
    intros [A _]. apply Rabs_le_inv in A. lra.
Qed.
