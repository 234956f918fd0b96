(** C74: rect_proper. *)
From Coq Require Import ZArith Bool List Reals Lra Lia.
From Verif.Base Require Import Py Arr Sums.
From Verif.Model Require Import RectProper.
From Verif.Spec Require Import RectProperSpec.
From Verif.Proofs Require Import RectProperP RectProperQ.
Open Scope R_scope.

(** Each pixel is the mean over its [ns] horizontal lines of the exact length of the line inside the rectangle. *)
Theorem C74_mean_chord_length : forall nx ny width height xOffset yOffset rot ns isDark,
  (0 < nx)%Z -> (0 < ny)%Z -> 0 < width -> 0 < height -> (0 < ns)%Z ->
  exists out seg, rect_proper nx ny width height xOffset yOffset rot ns isDark = Ok out /\ nr out = ny /\ nc out = nx /\
  forall i j, (0 <= i < ny)%Z -> (0 <= j < nx)%Z ->
  (forall q, (0 <= q < ns)%Z ->
   length_where (fun x => in_rotated_rect width height (rot * PI / 180) (x - xOffset)
                            ((IZR (i - ny / 2) - / 2 + (IZR q + / 2) / IZR ns) - yOffset))
     (IZR (j - nx / 2) - / 2) (IZR (j - nx / 2) + / 2) (seg i j q)) /\
  at2 out i j = (let m := rsum (seg i j) ns / IZR ns in if isDark then 1 - m else m).
Proof. exact rect_proper_ok. Qed.
Print Assumptions C74_mean_chord_length.
Theorem C74_lengths_determined : forall P p q l l', length_where P p q l -> length_where P p q l' -> l = l' /\ 0 <= l <= q - p.
Proof. intros P p q l l' A B. exact (conj (length_where_unique P p q l l' A B) (length_where_range P p q l A)). Qed.
Print Assumptions C74_lengths_determined.
Theorem C74_transmission : forall nx ny width height xOffset yOffset rot ns isDark out,
  rect_proper nx ny width height xOffset yOffset rot ns isDark = Ok out -> forall i j, (0 <= i < ny)%Z -> (0 <= j < nx)%Z ->
  0 <= at2 out i j <= 1.
Proof. exact rect_proper_range. Qed.
Print Assumptions C74_transmission.
Theorem C74_inside_and_outside : forall nx ny w h xOffset yOffset rot ns m i j,
  rect_proper nx ny w h xOffset yOffset rot ns false = Ok m -> (0 <= i < ny)%Z -> (0 <= j < nx)%Z ->
  let inside x y := in_rotated_rect w h (rot * PI / 180) (x - xOffset) (y - yOffset) in
  let in_pixel x y := Rabs (x - IZR (j - nx / 2)) < / 2 /\ Rabs (y - IZR (i - ny / 2)) < / 2 in
  ((forall x y, in_pixel x y -> inside x y) -> at2 m i j = 1) /\
  ((forall x y, in_pixel x y -> ~ inside x y) -> at2 m i j = 0).
Proof. exact rect_proper_inside. Qed.
Print Assumptions C74_inside_and_outside.
Theorem C74_dark_complement : forall nx ny width height xOffset yOffset rot ns m m',
  rect_proper nx ny width height xOffset yOffset rot ns false = Ok m ->
  rect_proper nx ny width height xOffset yOffset rot ns true = Ok m' -> aeq m' (amap (fun v => 1 - v) m).
Proof. exact rect_proper_complement. Qed.
Print Assumptions C74_dark_complement.
Theorem C74_size_monotone : forall nx ny w h w' h' xOffset yOffset rot ns m m', w <= w' -> h <= h' ->
  rect_proper nx ny w h xOffset yOffset rot ns false = Ok m -> rect_proper nx ny w' h' xOffset yOffset rot ns false = Ok m' ->
  forall i j, (0 <= i < ny)%Z -> (0 <= j < nx)%Z -> at2 m i j <= at2 m' i j.
Proof. exact rect_proper_mono. Qed.
Print Assumptions C74_size_monotone.
Theorem C74_bad_arguments : forall nx ny w h xOffset yOffset rot ns isDark,
  (nx <= 0)%Z \/ (ny <= 0)%Z \/ w <= 0 \/ h <= 0 \/ (ns <= 0)%Z ->
  rect_proper nx ny w h xOffset yOffset rot ns isDark = Err TypeError.
Proof. exact rect_proper_err. Qed.
Print Assumptions C74_bad_arguments.
(** A 6 by 2 rectangle turned by 90 degrees: the pixel two rows above the centre is inside, the one two columns to the right is not. *)
Example C74_ex :
  (forall x y, Rabs (x - 0) < / 2 /\ Rabs (y - 2) < / 2 -> in_rotated_rect 6 2 (90 * PI / 180) (x - 0) (y - 0)) /\
  (forall x y, Rabs (x - 2) < / 2 /\ Rabs (y - 0) < / 2 -> ~ in_rotated_rect 6 2 (90 * PI / 180) (x - 0) (y - 0)).
Proof.
  replace (90 * PI / 180) with (PI / 2) by field. unfold in_rotated_rect. rewrite cos_PI2, sin_PI2.
  split; intros x y [A B]; apply Rabs_def2 in A; apply Rabs_def2 in B; lra.
Qed.
Example C74_ex_chord : length_where (fun x => in_rotated_rect 3 2 (90 * PI / 180) (x - / 4) (/ 3)) (- / 2) (/ 2) 1 /\
                       length_where (fun x => in_rotated_rect 3 2 (90 * PI / 180) (x - / 4) (/ 3)) (1 - / 2) (1 + / 2) (3 / 4).
Proof.
  replace (90 * PI / 180) with (PI / 2) by field. unfold in_rotated_rect. rewrite cos_PI2, sin_PI2.
  split; [exists (- / 2), (/ 2)|exists (/ 2), (5 / 4)]; (split; [lra|]; split; [lra|]; split; [lra|]; split; intros; lra).
Qed.
