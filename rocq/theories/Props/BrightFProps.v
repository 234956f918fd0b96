(** Property C102: centre of energy, quadrant balance and rms in double precision. *)
From Coq Require Import ZArith Reals Bool List Lia Lra.
From Flocq Require Import Core BinarySingleNaN.
From Verif.Base Require Import Py Arr Sums F64 Lstsq.
From Verif.Model Require Import BrightF Math.
From Verif.Spec Require Import FitsSpec BrightFSpec DarkHoleFSpec.
From Verif.Proofs Require Import FitsP BrightFP BrightFQ BrightFR.
Import ListNotations.
Local Open Scope R_scope.

(** C102. An image with a nan or infinite pixel has no centre: both results are nan, whatever else is in it and in
    whatever order numpy adds. *)
Theorem C102_center_bad_pixel : forall np_sum a i j, sums_up np_sum -> in_arr a i j -> is_finite (at2 a i j) = false ->
  center_of_energy_f np_sum a = (fnan, fnan).
Proof. exact center_nonfinite. Qed.
Print Assumptions C102_center_bad_pixel.
(** C102. Otherwise the results are the mean column and the mean row to within 2^-51 of the side per pixel. *)
Theorem C102_center : forall np_sum a, sums_up np_sum -> photograph a ->
  let v := values a in
  near (fst (center_of_energy_f np_sum a)) (rsum2 (fun i j => IZR j * at2 v i j) (nr a) (nc a) / energy_sum v)
    (IZR (nc a - 1) * IZR (nr a * nc a) * bpow radix2 (-51)) /\
  near (snd (center_of_energy_f np_sum a)) (rsum2 (fun i j => IZR i * at2 v i j) (nr a) (nc a) / energy_sum v)
    (IZR (nr a - 1) * IZR (nr a * nc a) * bpow radix2 (-51)).
Proof. intros np_sum a Hs Ph. exact (center_err np_sum a Hs Ph). Qed.
Print Assumptions C102_center.
(** C102. A single lit pixel is located without any error, however faint or bright (or negative) it is. *)
Theorem C102_center_point_source : forall np_sum a i0 j0, sums_up np_sum -> (nr a <= 2 ^ 50)%Z -> (nc a <= 2 ^ 50)%Z -> in_arr a i0 j0 ->
  is_finite (at2 a i0 j0) = true -> fval (at2 a i0 j0) <> 0 ->
  (forall i j, in_arr a i j -> (i, j) <> (i0, j0) -> is_finite (at2 a i j) = true /\ fval (at2 a i j) = 0) ->
  near (fst (center_of_energy_f np_sum a)) (IZR j0) 0 /\ near (snd (center_of_energy_f np_sum a)) (IZR i0) 0.
Proof. exact BrightFQ.center_point. Qed.
Print Assumptions C102_center_point_source.

(** C102. One nan pixel anywhere in the image makes both balances nan, when the origin is a pixel of the image. *)
Theorem C102_quad_bad_pixel : forall np_sum a x0 y0 radius i j, sums_up np_sum -> (nr a <= 2 ^ 50)%Z -> (nc a <= 2 ^ 50)%Z ->
  in_arr a i j -> fisnan (at2 a i j) = true -> (0 <= x0 < nr a)%Z -> (0 <= y0 < nc a)%Z -> (x0 < nc a)%Z -> (y0 < nr a)%Z ->
  flt radius fzero = false -> fisnan radius = false ->
  quadrant_energy_balance_f np_sum a x0 y0 radius = Ok (fnan, fnan).
Proof. exact quad_nan. Qed.
Print Assumptions C102_quad_bad_pixel.
(** C102. So does a nan or infinite pixel inside the disc. *)
Theorem C102_quad_bad_inside : forall np_sum a x0 y0 t radius i j, sums_up np_sum -> grid_size t (nr a) (nc a) ->
  grid_length t radius -> 0 <= fval radius -> (0 <= x0 < nr a)%Z -> (0 <= y0 < nc a)%Z -> in_arr a i j ->
  is_finite (at2 a i j) = false -> in_disc x0 y0 (fval radius) i j ->
  quadrant_energy_balance_f np_sum a x0 y0 radius = Ok (fnan, fnan).
Proof. exact quad_inf_inside. Qed.
Print Assumptions C102_quad_bad_inside.
(** C102. But infinite pixels outside the disc, in an image otherwise without negative or nan pixels, make both balances
    zero whatever lies inside: the source looks perfectly centred. *)
Theorem C102_quad_saturated_outside : forall np_sum a x0 y0 t radius i j, sums_up np_sum -> grid_size t (nr a) (nc a) ->
  grid_length t radius -> 0 <= fval radius -> (0 <= x0 < nr a)%Z -> (0 <= y0 < nc a)%Z -> in_arr a i j ->
  (forall i j, in_arr a i j -> at2 a i j = finf \/ is_finite (at2 a i j) = true /\ 0 <= fval (at2 a i j)) ->
  at2 a i j = finf -> (forall i j, in_arr a i j -> at2 a i j = finf -> ~ in_disc x0 y0 (fval radius) i j) ->
  exists bx by_, quadrant_energy_balance_f np_sum a x0 y0 radius = Ok (bx, by_) /\ near bx 0 0 /\ near by_ 0 0.
Proof. exact quad_inf_outside. Qed.
Print Assumptions C102_quad_saturated_outside.
(** C102. The balances are those of exact arithmetic to within 2^-48 per pixel, for radii on a dyadic grid (whole or half
    pixels, say); the pixels counted are exactly those of the disc. *)
Theorem C102_quad : forall np_sum a x0 y0 t radius, sums_up np_sum -> photograph a -> grid_size t (nr a) (nc a) ->
  grid_length t radius -> 0 <= fval radius -> (0 <= x0 < nr a)%Z -> (0 <= y0 < nc a)%Z ->
  exists bx by_ sx sy, quadrant_energy_balance_f np_sum a x0 y0 radius = Ok (bx, by_) /\
    disc_energy (values a) x0 y0 (fval radius) (code_side_x x0 y0) sx /\
    disc_energy (values a) x0 y0 (fval radius) (code_side_y x0 y0) sy /\
    near bx (sx / energy_sum (values a)) (IZR (nr a * nc a) * bpow radix2 (-48)) /\
    near by_ (sy / energy_sum (values a)) (IZR (nr a * nc a) * bpow radix2 (-48)).
Proof.
  intros sm a x0 y0 t r Hs Ph Gs Gr R0 Hx Hy.
  destruct (quad_err sm a x0 y0 t r Hs Ph Gs Gr R0 Hx Hy) as (bx & by_ & vx & vy & E & Nx & Ny & Er).
  assert (Et : energy_sum (values a) <> 0) by (apply Rgt_not_eq; apply Ph).
  destruct (quad_value (values a) x0 y0 (fval r) R0 Hx Hy Et) as (wx & wy & sx & sy & Ew & Dx & Dy & -> & ->).
  rewrite Er in Ew. injection Ew as -> ->. exists bx, by_, sx, sy. auto.
Qed.
Print Assumptions C102_quad.
(** C102. A nan radius is accepted and gives zero balances. *)
Theorem C102_quad_nan_radius : forall np_sum a x0 y0, sums_up np_sum -> (0 <= x0 < nr a)%Z -> (0 <= y0 < nc a)%Z ->
  exists bx by_, quadrant_energy_balance_f np_sum a x0 y0 fnan = Ok (bx, by_) /\ near bx 0 0 /\ near by_ 0 0.
Proof. exact quad_nan_radius. Qed.
Print Assumptions C102_quad_nan_radius.

(** C102. rms of an array with a nan is nan; otherwise it is accurate to 2^-50 per element. *)
Theorem C102_rms_bad_value : forall np_sum l, sums_up np_sum -> In fnan l -> rms_f np_sum l = fnan.
Proof. exact rms_nan. Qed.
Print Assumptions C102_rms_bad_value.
Theorem C102_rms : forall np_sum l m, sums_up np_sum -> (Z.of_nat (List.length l) <= 2 ^ 40)%Z ->
  (forall v, In v l -> is_finite v = true /\ Rabs (fval v) <= bpow radix2 400) ->
  rms (map fval l) = Some m ->
  near (rms_f np_sum l) m (m * (INR (List.length l) * bpow radix2 (-50)) + bpow radix2 (-530)).
Proof.
  intros sm l m Hs Hl Hv E. destruct l as [|v l]; [discriminate|]. set (l' := v :: l) in *.
  assert (Em : m = sqrt (lsum (fun v => fval v ^ 2) l' / INR (List.length l'))).
  { unfold l' in *. cbn [map rms] in E. injection E as <-. f_equal. f_equal.
    - change (fval v :: map fval l) with (map fval (v :: l)). rewrite map_map, sum_list_lsum. reflexivity.
    - change (fval v :: map fval l) with (map fval (v :: l)). rewrite map_length. reflexivity. }
  rewrite Em. apply rms_err; auto. discriminate.
Qed.
Print Assumptions C102_rms.

(** Non-vacuity: adding from the right is a summation routine; a 3 x 4 ramp of whole numbers is a
    photograph; images with one bad pixel and with one lit pixel. *)
Definition sum_right (l : list f64) : f64 := fold_right fadd fzero l.
Example C102_ex_sum : sums_up sum_right.
Proof.
  intros l. induction l as [|x l IH]; [constructor|]. change (x :: l) with ([x] ++ l). change (sum_right ([x] ++ l)) with (fadd x (sum_right l)).
  constructor; [constructor|exact IH].
Qed.
Definition ramp : arr f64 := Arr 3 4 (fun i j => fofZ (2 * i + j)).
Example C102_ex : photograph ramp /\ grid_size 1 (nr ramp) (nc ramp) /\ grid_length 1 (fofZ 2).
Proof.
  assert (V : forall z, (0 <= z <= 100)%Z -> fval (fofZ z) = IZR z /\ is_finite (fofZ z) = true) by (intros z Hz; apply fofZ_spec; lia).
  assert (S : rsum2 (fun i j => fval (at2 ramp i j)) 3 4 = 42).
  { rewrite (rsum2_ext _ (fun i j => IZR (2 * i + j))).
    - cbv [rsum2 rsum gsum gnsum Z.to_nat Pos.to_nat Pos.iter_op Nat.add]. cbn. lra.
    - intros i j Hi Hj. apply V. lia. }
  assert (P : forall i j, in_arr ramp i j -> is_finite (at2 ramp i j) = true /\ 0 <= fval (at2 ramp i j)).
  { intros i j [Hi Hj]. change (nr ramp) with 3%Z in Hi. change (nc ramp) with 4%Z in Hj.
    destruct (V (2 * i + j)%Z ltac:(lia)) as [V1 F1]. change (at2 ramp i j) with (fofZ (2 * i + j)). split; auto. rewrite V1. apply IZR_le. lia. }
  split; [|split].
  - unfold photograph. change (nr ramp) with 3%Z. change (nc ramp) with 4%Z. rewrite S.
    split; [lia|]. split; [lia|]. split; [lia|]. split; [exact P|]. split; [lra|].
    apply Rlt_le_trans with (bpow radix2 6); [change (bpow radix2 6) with 64; lra|apply bpow_le; lia].
  - unfold grid_size. cbn [nr nc ramp]. lia.
  - destruct (fofZ_spec 2 ltac:(lia)) as [V2 F2]. split; auto. exists 4%Z. split; [rewrite V2; change (2 ^ 1)%Z with 2%Z; lra|lia].
Qed.
Definition dead_pixel : arr f64 := Arr 3 4 (fun i j => if ((i =? 1) && (j =? 2))%Z then fnan else fofZ (i + j)).
Example C102_ex_bad : in_arr dead_pixel 1 2 /\ is_finite (at2 dead_pixel 1 2) = false /\
  center_of_energy_f sum_right dead_pixel = (fnan, fnan) /\
  quadrant_energy_balance_f sum_right dead_pixel 2 1 (fofZ 2) = Ok (fnan, fnan).
Proof.
  assert (I : in_arr dead_pixel 1 2) by (unfold in_arr; cbn [nr nc dead_pixel]; lia).
  split; [exact I|]. split; [reflexivity|]. split.
  - apply (C102_center_bad_pixel _ _ 1 2 C102_ex_sum I). reflexivity.
  - apply (C102_quad_bad_pixel _ _ _ _ _ 1 2 C102_ex_sum); auto; try (cbn [nr nc dead_pixel]; lia).
Qed.
Definition star : arr f64 := Arr 3 4 (fun i j => if ((i =? 1) && (j =? 2))%Z then fofZ 7 else fofZ 0).
Example C102_ex_star : near (fst (center_of_energy_f sum_right star)) 2 0 /\ near (snd (center_of_energy_f sum_right star)) 1 0.
Proof.
  assert (V : forall z, (0 <= z <= 100)%Z -> fval (fofZ z) = IZR z /\ is_finite (fofZ z) = true) by (intros z Hz; apply fofZ_spec; lia).
  apply (C102_center_point_source sum_right star 1 2 C102_ex_sum); try (cbn [nr nc star]; lia).
  - unfold in_arr. cbn [nr nc star]. lia.
  - exact (proj2 (V 7%Z ltac:(lia))).
  - change (at2 star 1 2) with (fofZ 7). rewrite (proj1 (V 7%Z ltac:(lia))). lra.
  - intros i j _ Hn. assert (E : at2 star i j = fofZ 0).
    { unfold star. cbn [at2]. destruct (Z.eqb_spec i 1), (Z.eqb_spec j 2); subst; auto. congruence. }
    destruct (V 0%Z ltac:(lia)) as [V0 F0]. split; [transitivity (is_finite (fofZ 0)); [now f_equal|exact F0]|].
    transitivity (fval (fofZ 0)); [now f_equal|exact V0].
Qed.
Definition saturated : arr f64 := Arr 3 4 (fun i j => if ((i =? 0) && (j =? 3))%Z then finf else fofZ (i * j)).
Example C102_ex_saturated : exists bx by_, quadrant_energy_balance_f sum_right saturated 1 1 (fofZ 1) = Ok (bx, by_) /\ near bx 0 0 /\ near by_ 0 0.
Proof.
  assert (V : forall z, (0 <= z <= 100)%Z -> fval (fofZ z) = IZR z /\ is_finite (fofZ z) = true) by (intros z Hz; apply fofZ_spec; lia).
  destruct (V 1%Z ltac:(lia)) as [V1 F1].
  apply (C102_quad_saturated_outside sum_right saturated 1 1 0 (fofZ 1) 0 3 C102_ex_sum); try (cbn [nr nc saturated]; lia).
  - unfold grid_size. cbn [nr nc saturated]. lia.
  - split; [exact F1|]. exists 1%Z. split; [rewrite V1; change (2 ^ 0)%Z with 1%Z; lra|lia].
  - rewrite V1. lra.
  - unfold in_arr. cbn [nr nc saturated]. lia.
  - intros i j [Hi Hj]. change (nr saturated) with 3%Z in Hi. change (nc saturated) with 4%Z in Hj. unfold saturated. cbn [at2].
    destruct ((i =? 0) && (j =? 3))%Z; [left; reflexivity|right]. destruct (V (i * j)%Z ltac:(nia)) as [Vz Fz]. split; [exact Fz|].
    apply Rle_trans with (IZR (i * j)); [apply IZR_le; nia|]. apply Req_le. symmetry. exact Vz.
  - reflexivity.
  - intros i j [Hi Hj] E D. unfold saturated in E. cbn [at2] in E.
    destruct (Z.eqb_spec i 0) as [->|]; destruct (Z.eqb_spec j 3) as [->|]; cbn [andb] in E.
    1: unfold in_disc in D; rewrite V1 in D; cbn in D; lra.
    all: change (nr saturated) with 3%Z in Hi; change (nc saturated) with 4%Z in Hj.
    all: match type of E with fofZ ?z = _ => assert (F := proj2 (V z ltac:(nia))); assert (Q : is_finite (fofZ z) = is_finite finf) by (f_equal; exact E) end.
    all: rewrite F in Q; discriminate Q.
Qed.
