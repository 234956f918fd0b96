(** Propagation there and back in double precision. *)
From Coq Require Import ZArith Reals Bool List Lia Lra Psatz.
From Coquelicot Require Import Complex.
From Flocq Require Import Core BinarySingleNaN.
From Verif.Base Require Import Py F64 Arr Sums CSum Fft.
From Verif.Model Require Import PadCrop MftF FresnelF Fresnel.
From Verif.Spec Require Import MftFSpec NollFSpec FresnelSpec FresnelFSpec.
From Verif.Proofs Require Import F64P F64N PadCropP NollFP MftFP FresnelP FresnelFP FresnelFQ FresnelFR.
Import ListNotations.
Local Open Scope R_scope.
Local Notation B := (bpow radix2).

Lemma pad_same (a o : arr C) n : (0 < n)%Z -> nr a = n -> nc a = n -> pad_crop a [n; n] (RtoC 0) = Ok o -> aeq o a.
Proof.
  intros Hn A D E. assert (W : wf a) by (split; lia). destruct (pad_crop_ok a n n (RtoC 0) W Hn Hn) as (x & Ex & X1 & X2 & X3). assert (x = o) by congruence. subst x.
  split; [congruence|]. split; [congruence|]. intros i j [Hi Hj]. rewrite X3 by lia. rewrite A, D. replace (i - n / 2 + n / 2)%Z with i by lia. replace (j - n / 2 + n / 2)%Z with j by lia.
  unfold in_arrb. destruct (Z.leb_spec 0 i), (Z.ltb_spec i (nr a)), (Z.leb_spec 0 j), (Z.ltb_spec j (nc a)); try lia. reflexivity.
Qed.
Lemma propagated_square e lam z n ppm x : (0 < n)%Z -> nr e = n -> nc e = n -> propagated e lam z n ppm x ->
  nr x = n /\ nc x = n /\ forall k l, (0 <= k < n)%Z -> (0 <= l < n)%Z -> spectrum x k l = (spectrum e k l * fresnel_transfer lam z ppm n k l)%C.
Proof.
  intros Hn A D (a & v & Ea & Ex & V1 & V2 & V3). rewrite A, D in Ex. pose proof (pad_same _ _ n Hn A D Ea) as Qa. pose proof (pad_same _ _ n Hn V1 V2 Ex) as Qx. destruct Qx as (Q1 & Q2 & Q3).
  split; [congruence|]. split; [congruence|]. intros k l Hk Hl. rewrite (aeq_spectrum x v) by (split; auto). rewrite V3 by auto. rewrite (aeq_spectrum a e) by auto. reflexivity.
Qed.
Lemma nrm_spectrum n (f g : Z -> Z -> C) T : (0 < n)%Z -> (forall k l, (0 <= k < n)%Z -> (0 <= l < n)%Z -> cdft2 (-1) n n f k l = (cdft2 (-1) n n g k l * T k l)%C) -> (forall k l, Cmod (T k l) = 1) -> nrm n n f = nrm n n g.
Proof.
  intros Hn H HT. assert (N0 : 0 < IZR n) by (apply IZR_lt; auto). apply Rmult_eq_reg_l with (IZR n); [|lra]. rewrite <- !(nrm_dft (-1)) by (auto; lia).
  unfold nrm. f_equal. apply rsum2_ext. intros k l Hk Hl. rewrite H, Cmod2_mult, (Cmod2_Cmod (T k l)), HT by auto. ring.
Qed.
Lemma propagated_dist a b lam z n ppm x y : (0 < n)%Z -> nr a = n -> nc a = n -> nr b = n -> nc b = n -> propagated a lam z n ppm x -> propagated b lam z n ppm y ->
  field_dist x y = field_dist a b /\ field_size x = field_size a.
Proof.
  intros Hn A1 A2 B1 B2 Ha Hb. destruct (propagated_square _ _ _ _ _ _ Hn A1 A2 Ha) as (X1 & X2 & X3). destruct (propagated_square _ _ _ _ _ _ Hn B1 B2 Hb) as (Y1 & Y2 & Y3).
  rewrite !field_dist_nrm, !field_size_nrm, X1, X2, A1, A2. split; apply (nrm_spectrum n _ _ (fresnel_transfer lam z ppm n)); auto; try (intros; apply Cmod_cis); intros k l Hk Hl.
  - rewrite !cdft2_sub. specialize (X3 k l Hk Hl). specialize (Y3 k l Hk Hl). rewrite !spectrum_cdft in X3, Y3. rewrite X1, X2, A1, A2 in X3. rewrite Y1, Y2, B1, B2 in Y3. rewrite X3, Y3. ring.
  - specialize (X3 k l Hk Hl). rewrite !spectrum_cdft in X3. rewrite X1, X2, A1, A2 in X3. exact X3.
Qed.
Lemma propagated_back e lam z n ppm x y : (0 < n)%Z -> nr e = n -> nc e = n -> propagated e lam z n ppm x -> propagated x lam (- z) n ppm y -> aeq y e.
Proof.
  intros Hn A1 A2 Hx Hy. destruct (propagated_square _ _ _ _ _ _ Hn A1 A2 Hx) as (X1 & X2 & X3). destruct (propagated_square _ _ _ _ _ _ Hn X1 X2 Hy) as (Y1 & Y2 & Y3).
  apply spectrum_inj; [congruence|congruence|]. intros k l [Hk Hl]. rewrite Y3, X3 by lia. rewrite <- Cmult_assoc. unfold fresnel_transfer. rewrite <- cis_add.
  match goal with |- (_ * cis ?t)%C = _ => replace t with 0 by ring end. rewrite cis_0. ring.
Qed.
Lemma propagated_ex e lam z nx ppm : (0 < nr e)%Z -> (0 < nc e)%Z -> (0 < nx)%Z -> exists x, propagated e lam z nx ppm x.
Proof.
  intros Hr Hc Hn. destruct (propagate_ok e nx (Arr nx nx (fresnel_transfer lam z ppm nx))) as (a & v & out & Ea & (V1 & V2 & V3) & _ & Ev & _); auto; [split; lia|]. exists out, a, v. auto.
Qed.
Lemma dist_tri (a b c : arr C) : nr a = nr b -> nc a = nc b -> field_dist a c <= field_dist a b + field_dist b c.
Proof. intros H1 H2. rewrite !field_dist_nrm, <- H1, <- H2. apply nrm_tri. Qed.
Lemma size_le (a b : arr C) : nr a = nr b -> nc a = nc b -> field_size a <= field_size b + field_dist a b.
Proof. intros H1 H2. rewrite !field_dist_nrm, !field_size_nrm, <- H1, <- H2. apply nrm_near. Qed.
Lemma dist_aeq (a b b' : arr C) : nr a = nr b -> nc a = nc b -> aeq b b' -> field_dist a b = field_dist a b'.
Proof. intros H1 H2 (Q1 & Q2 & Q3). rewrite !field_dist_nrm. apply nrm_ext. intros i j Hi Hj. rewrite Q3 by (split; lia). reflexivity. Qed.

Section Lib.
Variables (pw : f64 -> option f64) (h : f64 -> f64 -> f64) (ex : c128 -> c128) (ffft fifft : arr c128 -> arr c128) (eta : R).
Hypotheses (Heta : 0 <= eta <= / 100) (Hfft : transform_ok eta fft2 ffft) (Hifft : transform_ok eta ifft2 fifft) (Hpw : pow2_ok pw) (Hh : hypot_ok h) (Hh0 : hypot_zero h) (Hex : cexp_ok ex).
Lemma opp_val z : fval (fopp z) = - fval z.
Proof. apply B2R_Bopp. Qed.
Lemma opp_usable z : usable_distance z -> usable_distance (fopp z).
Proof. intros [F H]. split; [unfold fopp; rewrite is_finite_Bopp; exact F|]. rewrite opp_val, Rabs_Ropp. destruct H as [->|H]; [left; ring|right; exact H]. Qed.
Lemma abs_opp (z : f64) : Babs (fopp z) = Babs z.
Proof. destruct z; reflexivity. Qed.
Lemma back_accepted f e lam z nx ppm : nr f = nr e -> nc f = nc e -> usable_sampling lam -> usable_sampling ppm -> usable_distance z -> fval z <> 0 -> (0 < nx)%Z ->
  n_samples_min_f pw lam z ppm = Ok (Zceil (fval (fmul (fmul lam (Babs z)) (match pw ppm with Some p => p | None => fzero end)))) ->
  fresnelprop_f pw h ex ffft fifft e lam z nx ppm <> Err ValueError ->
  fresnelprop_f pw h ex ffft fifft f lam (fopp z) nx ppm = propagate_f ffft fifft f nx (fp_array_f h ex lam (fopp z) nx ppm).
Proof using.
  intros A D Hl Hp Hz Z0 Hn E N. unfold fresnelprop_f in *. rewrite (usable_fle _ Hl), (usable_fle _ Hp) in *. cbn [negb guard bind] in *. destruct (Z.ltb_spec 0 nx); [|lia]. cbn [guard bind] in *.
  assert (F1 : feq z fzero = false) by (rewrite feq_val by (try apply Hz; reflexivity); apply Req_bool_false; exact Z0).
  assert (F2 : feq (fopp z) fzero = false) by (rewrite feq_val by (try apply (opp_usable z Hz); reflexivity); apply Req_bool_false; rewrite opp_val; change (fval fzero) with 0; lra).
  rewrite F1 in N. rewrite F2. assert (E2 : n_samples_min_f pw lam (fopp z) ppm = n_samples_min_f pw lam z ppm) by (unfold n_samples_min_f; rewrite abs_opp; reflexivity). rewrite E2, E in *. cbn [bind] in *.
  rewrite A, D. destruct (Z.ltb_spec (Z.min (nr e) (nc e)) (Zceil (fval (fmul (fmul lam (Babs z)) match pw ppm with Some p => p | None => fzero end)))); cbn [negb guard bind] in *; [congruence|reflexivity].
Qed.
Lemma round_trip e lam z n ppm f : usable_sampling lam -> usable_distance z -> usable_sampling ppm -> fval z <> 0 -> (0 < n <= 2 ^ 20)%Z -> nr e = n -> nc e = n ->
  finite_field e -> field_size (cvals e) <= B 440 -> fresnelprop_f pw h ex ffft fifft e lam z n ppm = Ok f ->
  exists g, fresnelprop_f pw h ex ffft fifft f lam (fopp z) n ppm = Ok g /\ nr g = n /\ nc g = n /\ finite_field g /\
    field_dist (cvals g) (cvals e) <= 3 * (3 * eta + B (-47) * IZR n) * field_size (cvals e) + B (-880).
Proof.
  intros Hl Hz Hp Z0 Hn A D Fe Se E. assert (M : Z.min (nr e) (nc e) = n) by lia.
  destruct (fresnelprop_near pw h ex ffft fifft eta Heta Hfft Hifft Hpw Hh Hh0 Hex e lam z n ppm f) as (R1 & C1 & Ff & x & Px & Dx); auto; try lia. { eapply Rle_trans; [exact Se|apply bpow_le; lia]. }
  rewrite M in Dx. set (c := 3 * eta + B (-47) * IZR n) in *. set (s := field_size (cvals e)) in *. assert (s0 : 0 <= s) by apply sqrt_pos.
  assert (c0 : 0 <= c <= / 10).
  { pose proof (bpow_gt_0 radix2 (-47)). assert (1 <= IZR n) by (apply IZR_le; lia). assert (IZR n <= B 20) by (change (B 20) with (IZR (2 ^ 20)); apply IZR_le; lia).
    assert (B (-47) * IZR n <= B (-47) * B 20) by (apply Rmult_le_compat_l; lra). rewrite <- bpow_plus in H2. assert (B (-47 + 20) <= B (-10)) by (apply bpow_le; lia). change (B (-10)) with (/ 1024) in H3. unfold c. split; [|lra]. assert (0 <= B (-47) * IZR n) by (apply Rmult_le_pos; lra). lra. }
  assert (cs : 0 <= c * s <= / 10 * s) by (split; [apply Rmult_le_pos; lra|apply Rmult_le_compat_r; lra]).
  set (t := B (-890)) in *. assert (t0 : 0 < t) by apply bpow_gt_0. assert (t1 : t <= 1) by (change 1 with (B 0); apply bpow_le; lia). assert (B440 : 1 <= B 440) by (change 1 with (B 0); apply bpow_le; lia).
  assert (Ae : nr (cvals e) = n) by exact A. assert (De : nc (cvals e) = n) by exact D. assert (Af : nr (cvals f) = n) by (cbn; congruence). assert (Df : nc (cvals f) = n) by (cbn; congruence).
  destruct (propagated_dist _ _ _ _ _ _ _ _ (proj1 Hn) Ae De Ae De Px Px) as [_ Sx]. fold s in Sx. destruct (propagated_square _ _ _ _ _ _ (proj1 Hn) Ae De Px) as (X1 & X2 & _).
  assert (Sf : field_size (cvals f) <= 11 / 10 * s + t) by (eapply Rle_trans; [apply (size_le _ x); congruence|]; lra).
  assert (Sf' : field_size (cvals f) <= B 450) by (apply Rle_trans with (1 := Sf); apply Rle_trans with (B 2 * B 440); [change (B 2) with 4; lra|rewrite <- bpow_plus; apply bpow_le; lia]).
  destruct (propagated_ex (cvals f) (fval lam) (fval (fopp z)) n (fval ppm)) as [y0 Py0]; try lia.
  destruct (fresnelprop_f_inv pw h ex ffft fifft Hpw e lam z n ppm f Hl Hz Hp Z0 E) as (_ & HX & _). rewrite M in HX. destruct (total_le eta Heta n (field_size (cvals f)) Hn (sqrt_pos _)) as [Hd Ht].
  assert (Hz' := opp_usable z Hz). destruct (spread_near pw lam z ppm Hpw Hl Hz Hp) as (p & Ep & Np).
  assert (Eb : fresnelprop_f pw h ex ffft fifft f lam (fopp z) n ppm = propagate_f ffft fifft f n (fp_array_f h ex lam (fopp z) n ppm)).
  { apply (back_accepted f e); auto; try lia; [|rewrite E; discriminate]. unfold n_samples_min_f. rewrite Ep. cbn [bind]. apply int_ceil. apply Np. }
  destruct (propagate_near ex ffft fifft eta Heta Hfft Hifft f n (fval lam) (fval (fopp z)) (fval ppm) (fp_array_f h ex lam (fopp z) n ppm) (B (-49) * (17 / 10 * IZR n) + B (-51))) as (g & y & Eg & A' & D' & Fg & Py & Dy); auto; try lia.
  { intros k l Hk Hl'. apply (factor_near h ex Hh Hh0 Hex); auto; try lia. rewrite opp_val. unfold points_needed in *. rewrite Rabs_Ropp. exact HX. }
  exists g. split; [congruence|]. split; [congruence|]. split; [congruence|]. split; [auto|].
  destruct (propagated_ex x (fval lam) (fval (fopp z)) n (fval ppm)) as [w Pw]; try lia.
  destruct (propagated_dist _ _ _ _ _ _ _ _ (proj1 Hn) Af Df X1 X2 Py Pw) as [Dw _]. rewrite opp_val in Pw. pose proof (propagated_back _ _ _ _ _ _ _ (proj1 Hn) Ae De Px Pw) as Q.
  destruct (propagated_square _ _ _ _ _ _ (proj1 Hn) Af Df Py) as (Y1 & Y2 & _). assert (Ag : nr (cvals g) = n) by (cbn; congruence). assert (Dg : nc (cvals g) = n) by (cbn; congruence). destruct Q as (Q1 & Q2 & Q3).
  rewrite <- (dist_aeq (cvals g) w (cvals e)); [|congruence|congruence|split; auto]. eapply Rle_trans; [apply (dist_tri _ y); congruence|]. rewrite Dw.
  assert (c * field_size (cvals f) <= c * (11 / 10 * s + t)) by (apply Rmult_le_compat_l; lra). assert (c * t <= 1 * t) by (apply Rmult_le_compat_r; lra).
  assert (10 * t <= B (-880)) by (apply Rle_trans with (B 10 * B (-890)); [change (B 10) with 1024; fold t; lra|rewrite <- bpow_plus; apply bpow_le; lia]). fold c in Ht. fold t in Dy. lra.
Qed.
End Lib.
