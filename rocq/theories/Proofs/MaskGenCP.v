(** Complex masks. *)
From Coq Require Import ZArith Bool List String Reals Lra Lia FunctionalExtensionality.
From Flocq Require Import Core.
From Coquelicot Require Import Complex.
From Verif.Base Require Import Py Arr Vec Sums CSum Fft.
From Verif.Model Require Import Math PadCrop Fits ThinFilm MaskGen MaskGenC.
From Verif.Spec Require Import MaskGenSpec.
From Verif.Proofs Require Import PadCropP MathP PsfFitP MaskGenP MaskGenR MaskGenEx.
Import ListNotations.
Open Scope Z_scope.

Lemma convolve_complex_ok (W : arr R) (M : arr C) n : 0 < n -> nr W = n -> nc W = n -> nr M = n -> nc M = n ->
  exists A, convolve_complex n W M = Ok A /\ nr A = n /\ nc A = n /\
  forall p q, at2 A p q = rsum2 (fun i j => at2 W i j * fst (at2 M ((p - i + n / 2) mod n)%Z ((q - j + n / 2) mod n)%Z))%R n n.
Proof.
  intros Hn W1 W2 M1 M2. unfold convolve_complex, ifft2, fft2.
  rewrite !nonempty_true by (cbn; lia). cbn [bind guard].
  rewrite nonempty_true by (cbn; lia). cbn [bind guard]. eexists. split; [reflexivity|].
  cbn [nr nc amap fftshift roll2 amap2 ifftshift]. split; [auto|]. split; [auto|]. intros p q.
  cbn [at2 fftshift roll2 amap ifftshift]. cbn [nr nc]. rewrite ?W1, ?W2, ?M1, ?M2.
  set (u := Arr n n (fun i j => RtoC (at2 W ((i - - (n / 2)) mod n) ((j - - (n / 2)) mod n)))).
  set (v := Arr n n (fun i j => at2 M ((i - - (n / 2)) mod n) ((j - - (n / 2)) mod n))).
  match goal with |- fst ?X = _ => assert (E : X = csum2 (fun i j => at2 u i j * at2 v (((p - n / 2) mod n - i) mod n) (((q - n / 2) mod n - j) mod n))%C n n) end.
  { rewrite <- (fft_conv u v _ _ n) by auto. unfold fft2_at. cbn [nr nc at2 amap2 amap roll2]. rewrite ?W1, ?W2, ?M1, ?M2.
    apply csum2_ext. intros i j Hi Hj. do 2 f_equal.
    - f_equal. unfold ifft2_at. unfold ifftshift, roll2. cbn [nr nc at2 amap]. rewrite ?W1, ?W2. reflexivity.
    - f_equal. unfold ifft2_at. unfold ifftshift, roll2. cbn [nr nc at2 amap]. rewrite ?M1, ?M2. reflexivity. }
  rewrite E. clear E.
  rewrite <- (csum2_shift _ n (n / 2) (n / 2)) by auto. rewrite csum2_fst. unfold rsum2.
  apply rsum_ext. intros i Hi. apply rsum_ext. intros j Hj. unfold u, v. cbn [at2].
  assert (Q1 : forall x, 0 <= x < n -> ((x - n / 2) mod n - - (n / 2)) mod n = x).
  { intros x Hx. rewrite Zminus_mod_idemp_l. replace (x - n / 2 - - (n / 2)) with x by ring. apply Z.mod_small; auto. }
  rewrite !Q1 by auto.
  assert (Q2 : forall x y, ((((x - n / 2) mod n - (y - n / 2) mod n) mod n) - - (n / 2)) mod n = (x - y + n / 2) mod n).
  { intros x y. rewrite <- Zminus_mod, Zminus_mod_idemp_l. f_equal. ring. }
  rewrite !Q2. cbn [fst snd Cmult RtoC]. ring.
Qed.
Lemma arr_ext {A} (a b : arr A) : nr a = nr b -> nc a = nc b -> (forall i j, at2 a i j = at2 b i j) -> a = b.
Proof.
  destruct a as [n m f], b as [n' m' g]. cbn. intros -> -> H. f_equal.
  apply functional_extensionality; intros i; apply functional_extensionality; intros j. apply H.
Qed.
Lemma convolve_real_part n W (M : arr C) : 0 < n -> nr W = n -> nc W = n -> nr M = n -> nc M = n ->
  convolve_complex n W M = convolve n W (amap fst M).
Proof.
  intros Hn W1 W2 M1 M2. destruct (convolve_complex_ok W M n Hn W1 W2 M1 M2) as (A & EA & A1 & A2 & AV).
  destruct (convolve_ok W (amap fst M) n Hn W1 W2) as (B & EB & B1 & B2 & BV); try (cbn [nr nc amap]; auto).
  rewrite EA, EB. f_equal. apply arr_ext; [lia|lia|]. intros i j. rewrite AV, BV. reflexivity.
Qed.
Lemma pad_crop_map {A B} (f : A -> B) a sz e :
  pad_crop (amap f a) sz (f e) = match pad_crop a sz e with Ok m => Ok (amap f m) | Err x => Err x end.
Proof.
  unfold pad_crop. destruct sz as [|h1 [|w1 [|]]]; try reflexivity.
  destruct (0 <? h1); cbn [guard bind]; [|reflexivity]. destruct (0 <? w1); cbn [guard bind]; [|reflexivity].
  unfold set_slice, get_slice, afull. cbn [nr nc amap at2].
  destruct (_ && _); [|reflexivity]. f_equal. apply arr_ext; try reflexivity. intros i j. cbn [at2 amap].
  destruct (_ && _); reflexivity.
Qed.
Lemma pad_crop_size {A} (a : arr A) n m e out : pad_crop a [n; m] e = Ok out -> nr out = n /\ nc out = m /\ 0 < n /\ 0 < m.
Proof.
  unfold pad_crop. destruct (Z.ltb_spec 0 n); cbn [guard bind]; [|discriminate].
  destruct (Z.ltb_spec 0 m); cbn [guard bind]; [|discriminate]. unfold set_slice, afull. cbn [nr nc].
  destruct (_ && _); [|discriminate]. intros E. injection E as <-. cbn. auto.
Qed.
Lemma complex_real_part rotate spline (a : arr C) rotDeg mag xo yo padFac flip :
  rotate_shift_downsample_complex rotate spline a rotDeg mag xo yo padFac flip =
  rotate_shift_downsample rotate spline (amap fst a) rotDeg mag xo yo padFac flip.
Proof.
  unfold rotate_shift_downsample_complex, rotate_shift_downsample.
  destruct (Rltb 0 mag); cbn [guard bind]; [|reflexivity].
  destruct (negb (Rltb 1 mag)); cbn [guard bind]; [|reflexivity].
  destruct (Rltb 0 padFac); cbn [guard bind]; [|reflexivity].
  destruct (negb (Rltb padFac 1)); cbn [guard bind]; [|reflexivity].
  cbn [nr nc amap]. set (N := ceil_odd _).
  match goal with |- _ = (do mask <- ?X; _) => replace X with (pad_crop (amap (fst : C -> R) a) [N; N] (fst (RtoC 0))) by reflexivity end.
  rewrite (pad_crop_map (fst : C -> R)). destruct (pad_crop a [N; N] (RtoC 0)) as [m|e] eqn:E; cbn [bind]; [|reflexivity].
  apply pad_crop_size in E as (R1 & C1 & P & _). cbv zeta.
  destruct (arange_ok N P) as (L & _ & _).
  set (mc := if flip then Arr (nr m) (nc m) (fun i j => at2 m i (nc m - 1 - j)) else m).
  match goal with |- _ = bind (convolve (nr ?mr) _ _) _ => assert (Q : mr = amap fst mc) by (unfold mc; destruct flip; reflexivity); rewrite Q; clear Q end.
  assert (Rm : nr mc = N) by (unfold mc; destruct flip; exact R1).
  assert (Cm : nc mc = N) by (unfold mc; destruct flip; exact C1).
  cbn [nr amap]. change (@nr (R * R) mc) with (@nr C mc). rewrite Rm.
  rewrite convolve_real_part by (first [exact P | exact Rm | exact Cm | cbn [nr nc window amap]; exact L]).
  rewrite ?Rm. reflexivity.
Qed.

Definition phase5 : arr C := afull 5 5 (0, 1)%R.
Lemma phase5_out : least_odd_above (IZR (2 * 2 + 1) + 2) (2 * 3 + 1).
Proof.
  split; [exists 3; reflexivity|]. split; [rewrite <- plus_IZR; apply IZR_le; lia|]. intros m _ Hm.
  rewrite <- plus_IZR in Hm. apply le_IZR in Hm. lia.
Qed.
Lemma complex_unit_refuted : ~ (forall rotate spline (a : arr C) out h H, good_spline spline -> wf a ->
  least_odd_above (1 * IZR (Z.max (nr a) (nc a))) (2 * h + 1) -> 4 <= 2 * h + 1 ->
  least_odd_above (IZR (2 * h + 1) + 2) (2 * H + 1) ->
  rotate_shift_downsample_complex rotate spline a 0 1 0 0 1 false = Ok out ->
  forall dy dx, - h <= dy <= h -> - h <= dx <= h -> in_arr a (nr a / 2 + dy) (nc a / 2 + dx) ->
   RtoC (at2 out (H + 1 + dy) (H + 1 + dx)) = at2 a (nr a / 2 + dy) (nc a / 2 + dx)).
Proof.
  intros X.
  assert (W : wf (amap fst phase5)) by (split; cbn; lia).
  assert (Y := unit_ok rotate_ref spline_ref (amap fst phase5) 1 false 0 0 2 3 W spline_ref_good ltac:(lra) ones5_odd ltac:(lia) ones5_out).
  destruct Y as (out & E & _).
  specialize (X rotate_ref spline_ref phase5 out 2 3 spline_ref_good W ones5_odd ltac:(lia) phase5_out).
  rewrite complex_real_part in X. specialize (X E 0 0 ltac:(lia) ltac:(lia)).
  assert (I : in_arr phase5 (nr phase5 / 2 + 0) (nc phase5 / 2 + 0)) by (split; cbn; lia).
  specialize (X I). apply (f_equal snd) in X. cbn in X. lra.
Qed.
