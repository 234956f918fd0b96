(** C106. The matrix Fourier transforms as run, in double precision. *)
From Coq Require Import ZArith Reals List Lia Lra.
From Coquelicot Require Import Complex.
From Flocq Require Import Core BinarySingleNaN.
From Verif.Base Require Import Py F64 Arr Sums CSum.
From Verif.Model Require Import MftF.
From Verif.Spec Require Import MftSpec RefuseSpec RefuseLibSpec MftFSpec.
From Verif.Proofs Require Import RefuseP MftFS MftFRef MftFEx MftFRound.
Import ListNotations.
Local Open Scope R_scope.

(** Each value is within the stated distance of the Riemann sum of the Fourier integral that C18 and C19 speak of. *)
Theorem C106_mft_accurate : forall fcexp fdot, cexp_ok fcexp -> dot_ok fdot -> forall e h w ppl ppp,
  usable_field e -> (0 < h <= 2 ^ 20)%Z -> (0 < w <= 2 ^ 20)%Z -> usable_sampling ppl -> usable_sampling ppp ->
  exists o, do_mft_f fcexp fdot e [h; w] ppl ppp = Ok o /\ nr o = h /\ nc o = w /\
  forall a b, (0 <= a < h)%Z -> (0 <= b < w)%Z ->
  let tr := turns (a - h / 2) (nr e) (fval ppp) (fval ppl) in let tc := turns (b - w / 2) (nc e) (fval ppp) (fval ppl) in
  tr <= bpow radix2 30 -> tc <= bpow radix2 30 ->
  accurate (at2 o a b) (fourier_sum (-1) (amap cval e) (fval ppp) (fval ppl) h w a b) tr tc e (fval ppp).
Proof. exact do_mft_f_near. Qed.
Print Assumptions C106_mft_accurate.
Theorem C106_imft_accurate : forall fcexp fdot, cexp_ok fcexp -> dot_ok fdot -> forall e h w ppl ppp,
  usable_field e -> (0 < h <= 2 ^ 20)%Z -> (0 < w <= 2 ^ 20)%Z -> usable_sampling ppl -> usable_sampling ppp ->
  exists o, do_imft_f fcexp fdot e [h; w] ppl ppp = Ok o /\ nr o = h /\ nc o = w /\
  forall a b, (0 <= a < h)%Z -> (0 <= b < w)%Z ->
  let tr := turns (a - h / 2) (nr e) (fval ppl) (fval ppp) in let tc := turns (b - w / 2) (nc e) (fval ppl) (fval ppp) in
  tr <= bpow radix2 30 -> tc <= bpow radix2 30 ->
  accurate (at2 o a b) (fourier_sum 1 (amap cval e) (fval ppl) (fval ppp) h w a b) tr tc e (fval ppl).
Proof. exact do_imft_f_near. Qed.
Print Assumptions C106_imft_accurate.
(** The off-centre transform against the sum of the field embedded in the pupil array. *)
Theorem C106_offcenter_accurate : forall fcexp fdot, cexp_ok fcexp -> dot_ok fdot -> forall e h w ppl ppp hp wp y0 x0,
  usable_field e -> (0 < h <= 2 ^ 20)%Z -> (0 < w <= 2 ^ 20)%Z -> usable_sampling ppl -> usable_sampling ppp ->
  (0 < hp <= 2 ^ 20)%Z -> (0 < wp <= 2 ^ 20)%Z -> (0 <= y0)%Z -> (0 <= x0)%Z -> (y0 + nr e <= hp)%Z -> (x0 + nc e <= wp)%Z ->
  exists o, do_offcenter_mft_f fcexp fdot e [h; w] ppl ppp [hp; wp] [y0; x0] = Ok o /\ nr o = h /\ nc o = w /\
  forall a b, (0 <= a < h)%Z -> (0 <= b < w)%Z ->
  let tr := turns (a - h / 2) hp (fval ppp) (fval ppl) in let tc := turns (b - w / 2) wp (fval ppp) (fval ppl) in
  tr <= bpow radix2 30 -> tc <= bpow radix2 30 ->
  accurate (at2 o a b) (fourier_sum (-1) (embed (amap cval e) hp wp y0 x0) (fval ppp) (fval ppl) h w a b) tr tc e (fval ppp).
Proof. exact do_offcenter_f_near. Qed.
Print Assumptions C106_offcenter_accurate.

(** At critical sampling the inverse of the forward transform gives the field back: C19 in doubles. *)
Theorem C106_round_trip : forall fcexp fdot, cexp_ok fcexp -> dot_ok fdot -> forall e N ppl ppp,
  usable_field e -> total e <= bpow radix2 200 -> usable_sampling ppl -> usable_sampling ppp -> IZR N = fval ppl * fval ppp ->
  (nr e <= N <= 2 ^ 20)%Z -> (nc e <= N)%Z ->
  exists f g, do_mft_f fcexp fdot e [N; N] ppl ppp = Ok f /\ do_imft_f fcexp fdot f [nr e; nc e] ppl ppp = Ok g /\ nr g = nr e /\ nc g = nc e /\
  forall i j, (0 <= i < nr e)%Z -> (0 <= j < nc e)%Z ->
  cfin (at2 g i j) /\ Cmod (cval (at2 g i j) - cval (at2 e i j))%C <= bpow radix2 (-45) * IZR N * total e + bpow radix2 (-400).
Proof. exact round_trip. Qed.
Print Assumptions C106_round_trip.

(** Which inputs are refused, and how: a nan sampling is taken, an infinite one is not. *)
Theorem C106_mft_refused : forall fcexp fdot, dot_ok fdot -> forall e sh ppl ppp err,
  (0 <= nr e <= 2 ^ 53)%Z -> (0 <= nc e <= 2 ^ 53)%Z -> (forall n, In n sh -> n <= 2 ^ 53)%Z ->
  do_mft_f fcexp fdot e sh ppl ppp = Err err <-> refused (mft_f_needs e sh ppl ppp) err.
Proof. exact do_mft_f_refused. Qed.
Print Assumptions C106_mft_refused.
Theorem C106_imft_refused : forall fcexp fdot, dot_ok fdot -> forall e sh ppl ppp err,
  (0 <= nr e <= 2 ^ 53)%Z -> (0 <= nc e <= 2 ^ 53)%Z -> (forall n, In n sh -> n <= 2 ^ 53)%Z ->
  do_imft_f fcexp fdot e sh ppl ppp = Err err <-> refused (mft_f_needs e sh ppl ppp) err.
Proof. exact do_imft_f_refused. Qed.
Print Assumptions C106_imft_refused.
Theorem C106_offcenter_refused : forall fcexp fdot, dot_ok fdot -> forall e sh ppl ppp ps ll err,
  (0 <= nr e)%Z -> (0 <= nc e)%Z -> (forall n, In n sh -> n <= 2 ^ 53)%Z -> (forall n, In n ps -> n <= 2 ^ 53)%Z ->
  do_offcenter_mft_f fcexp fdot e sh ppl ppp ps ll = Err err <-> refused (offcenter_f_needs e sh ppl ppp ps ll) err.
Proof. exact do_offcenter_f_refused. Qed.
Print Assumptions C106_offcenter_refused.

(** A border of zeros about the field changes the value on the axis, even with routines that round correctly: the pixel size is
    computed as N / pixperpupil / N. *)
Theorem C106_padding_exact_refuted : ~ (forall fcexp fdot, cexp_ok fcexp -> dot_ok fdot -> forall e e' ppl ppp o o',
  (0 < nr e)%Z -> (0 < nc e)%Z -> usable_sampling ppl -> usable_sampling ppp ->
  nr e' = (nr e + 2)%Z -> nc e' = (nc e + 2)%Z -> (forall i j, (0 <= i < nr e)%Z -> (0 <= j < nc e)%Z -> at2 e' (i + 1) (j + 1) = at2 e i j) ->
  (forall i j, (i = 0 \/ j = 0 \/ i = nr e + 1 \/ j = nc e + 1)%Z -> at2 e' i j = (fzero, fzero)) ->
  do_mft_f fcexp fdot e [1; 1]%Z ppl ppp = Ok o -> do_mft_f fcexp fdot e' [1; 1]%Z ppl ppp = Ok o' -> fst (at2 o' 0 0) = fst (at2 o 0 0)).
Proof.
  intros H. destruct of_R_0 as [s E]. destruct (lit_out s E) as (o & E1 & V1). destruct (lit3_out s E) as (o' & E2 & V2).
  apply (scaled1_differ s). rewrite <- V1, <- V2. symmetry.
  apply (H cexp_ref dot_ref cexp_ref_ok dot_ref_ok lit lit3 (fofZ 1) (fofZ 5) o o'); auto; cbn [lit lit3 nr nc at2]; try lia; try (apply usable_Z; lia).
  - intros i j Hi Hj. replace i with 0%Z by lia. replace j with 0%Z by lia. reflexivity.
  - intros i j Hij. destruct (Z.eqb_spec i 1), (Z.eqb_spec j 1); cbn [andb]; auto. lia.
Qed.
Print Assumptions C106_padding_exact_refuted.

(** The hypotheses on the routines hold of routines that round correctly; the program runs on a lit pixel. *)
Example C106_routines : cexp_ok cexp_ref /\ dot_ok dot_ref.
Proof. split; [exact cexp_ref_ok|exact dot_ref_ok]. Qed.
Lemma lit_usable : usable_field lit.
Proof.
  split; [cbn; lia|]. split; [cbn; lia|]. split; [intros; split; reflexivity|]. unfold total. cbn [lit nr nc at2]. rewrite cval_1.
  change (0 + (0 + Cmod (RtoC 1)) <= bpow radix2 500). rewrite Cmod_1. assert (1 <= bpow radix2 500) by (change 1 with (bpow radix2 0); apply bpow_le; lia). lra.
Qed.
Example C106_ex : exists o, do_mft_f cexp_ref dot_ref lit [4; 6]%Z (fofZ 2) (fofZ 5) = Ok o /\ nr o = 4%Z /\ nc o = 6%Z /\ cfin (at2 o 0 5).
Proof.
  destruct (C106_mft_accurate cexp_ref dot_ref cexp_ref_ok dot_ref_ok lit 4 6 (fofZ 2) (fofZ 5)) as (o & E & A & D & F); try lia; try (apply usable_Z; lia); [apply lit_usable|].
  exists o. split; [auto|]. split; [auto|]. split; [auto|]. specialize (F 0 5 ltac:(lia) ltac:(lia))%Z. cbv zeta in F.
  destruct (fofZ_spec 2) as [V2 _]; [cbn; lia|]. destruct (fofZ_spec 5) as [V5 _]; [cbn; lia|]. rewrite V2, V5 in F.
  assert (1 <= bpow radix2 30) by (change 1 with (bpow radix2 0); apply bpow_le; lia).
  destruct F as [F _]; [| |exact F]; unfold turns; [change (Z.abs (0 - 4 / 2)) with 2%Z|change (Z.abs (5 - 6 / 2)) with 2%Z]; cbn [lit nr nc]; lra.
Qed.
Example C106_round_trip_ex : exists f g, do_mft_f cexp_ref dot_ref lit [10; 10]%Z (fofZ 2) (fofZ 5) = Ok f /\
  do_imft_f cexp_ref dot_ref f [1; 1]%Z (fofZ 2) (fofZ 5) = Ok g /\ Cmod (cval (at2 g 0 0) - RtoC 1)%C <= bpow radix2 (-40).
Proof.
  assert (T1 : total lit = 1) by (unfold total; cbn [lit nr nc at2]; rewrite cval_1; change (0 + (0 + Cmod (RtoC 1)) = 1); rewrite Cmod_1; lra).
  destruct (fofZ_spec 2) as [V2 _]; [cbn; lia|]. destruct (fofZ_spec 5) as [V5 _]; [cbn; lia|].
  destruct (C106_round_trip cexp_ref dot_ref cexp_ref_ok dot_ref_ok lit 10 (fofZ 2) (fofZ 5)) as (f & g & E1 & E2 & _ & _ & A); try (apply usable_Z; lia); try (cbn [lit nr nc]; lia); [apply lit_usable| | |].
  - rewrite T1. change 1 with (bpow radix2 0). apply bpow_le. lia.
  - rewrite V2, V5. lra.
  - exists f, g. split; [auto|]. split; [auto|]. destruct (A 0 0)%Z as [_ D]; [cbn; lia|cbn; lia|]. rewrite T1 in D. cbn [lit at2] in D. rewrite cval_1 in D. apply Rle_trans with (1 := D).
    assert (bpow radix2 (-400) <= bpow radix2 (-45)) by (apply bpow_le; lia). assert (J : bpow radix2 (-40) = 32 * bpow radix2 (-45)) by (change 32 with (bpow radix2 5); rewrite <- bpow_plus; reflexivity).
    pose proof (bpow_gt_0 radix2 (-45)). lra.
Qed.
(** An infinite sampling is refused before a field that does not fit; a nan one is not. *)
Example C106_infinite : do_offcenter_mft_f cexp_ref dot_ref lit [2; 2]%Z (B754_infinity false) (fofZ 5) [3; 3]%Z [7; 7]%Z = Err TypeError /\
  do_offcenter_mft_f cexp_ref dot_ref lit [2; 2]%Z fnan (fofZ 5) [3; 3]%Z [7; 7]%Z = Err ValueError.
Proof.
  assert (S5 : a_scale (fofZ 5)) by (right; destruct (fofZ_spec 5) as [V F]; [cbn; lia|]; split; [auto|rewrite V; lra]).
  split; (apply C106_offcenter_refused; [exact dot_ref_ok|cbn; lia|cbn; lia|intros n [<-|[<-|[]]]; lia|intros n [<-|[<-|[]]]; lia|]); unfold offcenter_f_needs; cbn [map app].
  - apply refused_here. intros [A|[A _]]; discriminate.
  - apply refused_later; [left; reflexivity|]. apply refused_later; [auto|]. do 3 (apply refused_later; [do 2 eexists; split; [reflexivity|lia]|]).
    apply refused_here. cbn. lia.
Qed.
