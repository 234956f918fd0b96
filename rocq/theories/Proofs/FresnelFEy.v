(** Fourier transforms that round correctly; which inputs fresnelprop refuses. *)
From Coq Require Import ZArith Reals Bool List Lia Lra Psatz String.
From Coquelicot Require Import Complex.
From Flocq Require Import Core BinarySingleNaN.
From Verif.Base Require Import Py F64 Arr Sums CSum Fft.
From Verif.Model Require Import Math PadCrop MftF FresnelF Fresnel.
From Verif.Spec Require Import MftFSpec NollFSpec FresnelSpec FresnelFSpec RefuseSpec.
From Verif.Proofs Require Import RefuseP F64P F64N LibmRef PadCropP NollFP MftFP MftFQ MftFR MftFRound MftFEx FresnelP FresnelFP FresnelFQ FresnelFR.
Import ListNotations.
Local Open Scope R_scope.
Local Notation B := (bpow radix2).
Local Notation u := NollFP.u.

Definition rounded (a : arr C) : arr c128 := Arr (nr a) (nc a) (fun i j => (of_R (fst (at2 a i j)), of_R (snd (at2 a i j)))).
Definition fft_ref (a : arr c128) : arr c128 := rounded (Arr (nr a) (nc a) (fft2_at (cvals a))).
Definition ifft_ref (a : arr c128) : arr c128 := rounded (Arr (nr a) (nc a) (ifft2_at (cvals a))).
Lemma nrm_rect n m f g c t : (0 <= n <= 2 ^ 20)%Z -> (0 <= m <= 2 ^ 20)%Z -> 0 <= c -> 0 <= t -> (forall i j, (0 <= i < n)%Z -> (0 <= j < m)%Z -> Cmod (f i j) <= c * Cmod (g i j) + t) -> nrm n m f <= c * nrm n m g + B 20 * t.
Proof.
  intros Hn Hm Hc Ht H. assert (K : nrm n m (fun _ _ => RtoC t) <= B 20 * t).
  { apply sq_le; [apply Rmult_le_pos; [apply bpow_ge_0|auto]|]. rewrite nrm_sq, rsum2_const, Cmod2_R by lia. rewrite Rpow_mult_distr. replace (t ^ 2) with (t * t) by ring. apply Rmult_le_compat_r; [nra|].
    replace (B 20 ^ 2) with (B 20 * B 20) by ring. change (B 20) with (IZR (2 ^ 20)). apply Rmult_le_compat; apply IZR_le; lia. }
  apply Rle_trans with (nrm n m (fun i j => RtoC (c * Cmod (g i j)) + RtoC t)%C).
  - rewrite <- (Rmult_1_l (nrm n m (fun i j => _ + _)%C)). apply nrm_le; [lra|]. intros i j Hi Hj. rewrite Rmult_1_l, <- RtoC_plus, Cmod_R, Rabs_right; auto.
    pose proof (Cmod_ge_0 (g i j)). assert (0 <= c * Cmod (g i j)) by (apply Rmult_le_pos; auto). lra.
  - eapply Rle_trans; [apply nrm_add|]. apply Rplus_le_compat; [|exact K]. apply nrm_le; auto. intros i j Hi Hj. rewrite Cmod_R, Rabs_right; [lra|]. apply Rle_ge, Rmult_le_pos; [auto|apply Cmod_ge_0].
Qed.
Lemma rounded_ok (o : arr C) : (0 < nr o <= 2 ^ 20)%Z -> (0 < nc o <= 2 ^ 20)%Z -> (forall i j, in_arr o i j -> Cmod (at2 o i j) <= B 600) ->
  finite_field (rounded o) /\ field_dist (cvals (rounded o)) o <= B (-50) * field_size o + B (-900).
Proof.
  intros Hr Hc H. assert (G : forall i j, in_arr o i j -> cfin (at2 (rounded o) i j) /\ Cmod (cval (at2 (rounded o) i j) - at2 o i j)%C <= B (-50) * Cmod (at2 o i j) + B (-1000)).
  { intros i j Hij. destruct (of_C_near (at2 o i j) (Cmod (at2 o i j)) (Rle_refl _)) as [F E]. { eapply Rle_trans; [apply H; auto|apply bpow_le; lia]. }
    split; [exact F|]. eapply Rle_trans; [exact E|]. pose proof (Cmod_ge_0 (at2 o i j)). assert (I : B (-50) = 8 * B (-53)) by (change 8 with (B 3); rewrite <- bpow_plus; reflexivity). rewrite I. pose proof (bpow_gt_0 radix2 (-53)).
    assert (2 * B (-1075) <= B (-1000)) by (apply Rle_trans with (B 1 * B (-1075)); [change (B 1) with 2; lra|rewrite <- bpow_plus; apply bpow_le; lia]). assert (0 <= B (-53) * Cmod (at2 o i j)) by (apply Rmult_le_pos; lra). lra. }
  split; [intros i j Hij; apply G; exact Hij|]. rewrite field_dist_nrm, field_size_nrm. eapply Rle_trans; [apply (nrm_rect _ _ _ (at2 o) (B (-50)) (B (-1000))); auto; try lia; try apply bpow_ge_0|].
  - cbn. lia.
  - cbn. lia.
  - intros i j Hi Hj. apply G. split; assumption.
  - apply Rplus_le_compat_l. rewrite <- bpow_plus. apply bpow_le. lia.
Qed.
Lemma sum_size (a : arr c128) (k : Z -> Z -> C) : (0 < nr a <= 2 ^ 20)%Z -> (0 < nc a <= 2 ^ 20)%Z -> field_size (cvals a) <= B 500 -> (forall i j, Cmod (k i j) = 1) ->
  Cmod (csum2 (fun i j => at2 (cvals a) i j * k i j)%C (nr a) (nc a)) <= B 600.
Proof.
  intros Hr Hc Hs Hk. eapply Rle_trans; [apply Cmod_csum2|]. apply Rle_trans with (rsum2 (fun _ _ => B 500) (nr a) (nc a)).
  - apply rsum2_le. intros i j Hi Hj. rewrite Cmod_mult, Hk, Rmult_1_r. eapply Rle_trans; [|exact Hs]. rewrite field_size_nrm. apply nrm_term; auto.
  - rewrite rsum2_const by lia. apply Rle_trans with (B 20 * B 20 * B 500); [|rewrite <- !bpow_plus; apply bpow_le; lia]. apply Rmult_le_compat_r; [apply bpow_ge_0|]. change (B 20) with (IZR (2 ^ 20)). apply Rmult_le_compat; apply IZR_le; lia.
Qed.
Lemma fft_ref_ok : transform_ok (B (-50)) fft2 fft_ref.
Proof.
  intros a Hr Hc Fa Sa. set (o := Arr (nr a) (nc a) (fft2_at (cvals a))). exists o. split; [unfold fft2; rewrite nonempty_true by (cbn; lia); reflexivity|]. split; [reflexivity|]. split; [reflexivity|].
  apply (rounded_ok o); auto. intros i j _. cbn [o at2]. apply sum_size; auto. intros. apply Cmod_cis.
Qed.
Lemma ifft_ref_ok : transform_ok (B (-50)) ifft2 ifft_ref.
Proof.
  intros a Hr Hc Fa Sa. set (o := Arr (nr a) (nc a) (ifft2_at (cvals a))). exists o. split; [unfold ifft2; rewrite nonempty_true by (cbn; lia); reflexivity|]. split; [reflexivity|]. split; [reflexivity|].
  apply (rounded_ok o); auto. intros i j _. cbn [o at2]. unfold ifft2_at. rewrite Cmod_div by (apply RtoC_nm; cbn; lia).
  assert (1 <= IZR (nr a)) by (apply IZR_le; lia). assert (1 <= IZR (nc a)) by (apply IZR_le; lia). rewrite Cmod_R, Rabs_right by (cbn [cvals nr nc]; nra).
  match goal with |- ?s / _ <= _ => assert (S : s <= B 600) by (apply (sum_size a (fun _ _ => _)); auto; intros; apply Cmod_cis) || assert (S : s <= B 600) by (apply (sum_size a); auto; intros; apply Cmod_cis) end.
  apply Rle_trans with (B 600 / 1); [|lra]. apply Rmult_le_compat; auto; [apply Cmod_ge_0|left; apply Rinv_0_lt_compat; cbn [cvals nr nc]; nra|]. apply Rinv_le_contravar; [lra|]. cbn [cvals nr nc]. nra.
Qed.
Lemma ref_shapes : keeps_shape fft_ref /\ keeps_shape ifft_ref.
Proof. split; intros a; split; reflexivity. Qed.

(** ** Refusals *)
Section Lib.
Variables (pw : f64 -> option f64) (h : f64 -> f64 -> f64) (ex : c128 -> c128) (ffft fifft : arr c128 -> arr c128).
Hypotheses (Kf : keeps_shape ffft) (Ki : keeps_shape fifft).
Lemma propagate_refused e nx fp err : wf e -> (0 < nx)%Z -> nr fp = nx -> nc fp = nx ->
  propagate_f ffft fifft e nx fp = Err err <-> refused [((0 < nr e)%Z /\ (0 < nc e)%Z, TypeError)] err.
Proof.
  intros We Hn Fr Fc. unfold propagate_f. destruct (pad_crop_ok e nx nx (fzero, fzero) We Hn Hn) as (u0 & E0 & A0 & D0 & _). rewrite E0. cbn [bind]. unfold do_fft_f. rewrite nonempty_true by lia. cbn [guard bind].
  set (f := fftshift (ffft (ifftshift u0))). destruct (Kf (ifftshift u0)) as [Q1 Q2]. cbn [ifftshift roll2 nr nc] in Q1, Q2.
  assert (R1 : nr f = nx) by (change (nr f) with (nr (ffft (ifftshift u0))); congruence). assert (C1 : nc f = nx) by (change (nc f) with (nc (ffft (ifftshift u0))); congruence).
  unfold imul_f, bc_ok. rewrite R1, C1, Fr, Fc, Z.eqb_refl. cbn [andb orb guard bind]. set (g := Arr nx nx _). unfold do_ifft_f. rewrite nonempty_true by (cbn; lia). cbn [guard bind].
  set (o := fftshift (fifft (ifftshift g))). destruct (Ki (ifftshift g)) as [Q3 Q4]. cbn [ifftshift roll2 nr nc g] in Q3, Q4.
  assert (R2 : nr o = nx) by exact Q3. assert (C2 : nc o = nx) by exact Q4. rewrite refused_iff, refused_nil.
  destruct (Z_lt_le_dec 0 (nr e)) as [Hr|Hr]; [destruct (Z_lt_le_dec 0 (nc e)) as [Hc|Hc]|].
  - assert (Wo : wf o) by (split; lia). destruct (pad_crop_ok o (nr e) (nc e) (fzero, fzero) Wo Hr Hc) as (out & -> & _). split; [discriminate|tauto].
  - unfold pad_crop. destruct (Z.ltb_spec 0 (nr e)); [|lia]. destruct (Z.ltb_spec 0 (nc e)); [lia|]. cbn [guard bind]. split; [intros [= <-]; left; split; [lia|auto]|intros [[_ ->]|[_ []]]; reflexivity].
  - unfold pad_crop. destruct (Z.ltb_spec 0 (nr e)); [lia|]. cbn [guard bind]. split; [intros [= <-]; left; split; [lia|auto]|intros [[_ ->]|[_ []]]; reflexivity].
Qed.
Lemma fresnelprop_f_refused e lam z nx ppm err : wf e -> fresnelprop_f pw h ex ffft fifft e lam z nx ppm = Err err <-> refused (fresnelprop_f_needs pw e lam z nx ppm) err.
Proof.
  intros We. unfold fresnelprop_f, fresnelprop_f_needs. apply check_step; [rewrite negb_true_iff; tauto|]. intros _. apply check_step; [apply Z.ltb_lt|]. intros Hn.
  apply check_step; [rewrite negb_true_iff; tauto|]. intros _. destruct (feq z fzero).
  { rewrite !refused_iff, refused_nil. split; [discriminate|]. intros A. repeat (destruct A as [[A _]|[_ A]]; [exfalso; apply A; intros; discriminate|]). destruct A. }
  assert (S0 : forall P : Prop, (false = false -> P) <-> P) by (intros P; split; auto). cbv zeta. set (N := Z.min (nr e) (nc e)).
  unfold n_samples_min_f. rewrite refused_iff, S0. destruct (pw ppm) as [p|] eqn:E; cbn [bind].
  2: { split; [intros [= <-]; left; split; auto|]. intros [[_ ->]|[A _]]; [reflexivity|contradiction]. }
  assert (S : forall P : f64 -> Prop, (false = false -> forall p', Some p = Some p' -> P (fmul (fmul lam (Babs z)) p')) <-> P (fmul (fmul lam (Babs z)) p)) by (intros P; split; [intros A; apply A; auto|intros A _ p' [= <-]; exact A]).
  rewrite refused_iff, (S (fun x => x <> B754_nan)), refused_iff, (S (fun x => forall s, x <> B754_infinity s)), refused_iff, (S (fun x => fval x <= IZR N)).
  assert (T : (~ Some p <> None /\ err = Custom "OverflowError") <-> False) by (split; [intros [A _]; apply A; discriminate|tauto]). rewrite T. clear T S.
  set (x := fmul (fmul lam (Babs z)) p). clearbody x.
  destruct (is_finite x) eqn:F.
  - rewrite (int_ceil x F). cbn [bind]. assert (x <> B754_nan /\ forall s, x <> B754_infinity s) by (split; [|intros s]; intros ->; discriminate F).
    destruct (Z.ltb_spec N (Zceil (fval x))) as [Q|Q]; cbn [negb guard bind].
    + apply ceil_lt in Q. assert (~ fval x <= IZR N) by lra. split; [intros [= <-]; right; split; [discriminate|]; tauto|]. intros [[]|[_ [A|[_ [A|[_ [A|A]]]]]]]; try (destruct A; congruence); tauto.
    + assert (fval x <= IZR N) by (apply Rnot_lt_le; rewrite <- ceil_lt; lia). rewrite (propagate_refused e nx (fp_array_f h ex lam z nx ppm)) by auto. rewrite !refused_iff, S0, refused_nil.
      assert (Some p <> None) by discriminate. tauto.
  - destruct x as [s|s| |s m k W]; try discriminate F; cbn [fceil Bnearbyint int_of_float bind].
    + split; [intros [= <-]|]. { right. split; [discriminate|]. right. split; [discriminate|]. left. split; auto. intros A. apply (A s). reflexivity. }
      intros [[]|[_ [A|[_ [A|[A _]]]]]]; [destruct A as [A _]; exfalso; apply A; discriminate|destruct A; congruence|exfalso; apply (A s); reflexivity].
    + split; [intros [= <-]|]. { right. split; [discriminate|]. left. split; auto. }
      intros [[]|[_ [A|[A _]]]]; [destruct A; congruence|congruence].
Qed.
End Lib.
Lemma zero_distance pw h ex ffft fifft e lam z nx ppm fp : fval z = 0 -> is_finite z = true -> (0 < nx)%Z -> fle lam fzero = false -> fle ppm fzero = false ->
  fresnelprop_f pw h ex ffft fifft e lam z nx ppm = Ok e /\ fresnelprop_fp_f ffft fifft e z nx fp = Ok e.
Proof.
  intros Z0 Fz Hn Hl Hp. unfold fresnelprop_f, fresnelprop_fp_f. rewrite Hl, Hp. cbn [negb guard bind]. destruct (Z.ltb_spec 0 nx); [|lia]. cbn [guard bind].
  assert (E : feq z fzero = true) by (rewrite feq_val by auto; apply Req_bool_true; exact Z0). rewrite E. auto.
Qed.
Lemma propagated_unique e lam z nx ppm x y : wf e -> (0 < nx)%Z -> propagated e lam z nx ppm x -> propagated e lam z nx ppm y -> aeq x y.
Proof.
  intros We Hn (u1 & v1 & U1 & X1 & R1 & C1 & S1) (u2 & v2 & U2 & X2 & R2 & C2 & S2). assert (u2 = u1) by congruence. subst u2.
  assert (V : aeq v1 v2). { apply spectrum_inj; [congruence|congruence|]. intros k l [Hk Hl]. rewrite S1, S2 by lia. reflexivity. }
  assert (W1 : wf v1) by (split; lia). assert (W2 : wf v2) by (split; lia).
  destruct (pad_crop_inv _ _ _ _ W1 X1) as (h1 & w1 & Q1 & Hh & Hw & A1 & D1 & G1). destruct (pad_crop_inv _ _ _ _ W2 X2) as (h2 & w2 & Q2 & _ & _ & A2 & D2 & G2).
  rewrite Q1 in Q2. injection Q2 as <- <-. split; [congruence|]. split; [congruence|]. intros i j [Hi Hj]. rewrite G1, G2 by lia. destruct V as (V1 & V2 & V3).
  unfold in_arrb. rewrite V1, V2. destruct (_ && _) eqn:I; [|reflexivity]. apply V3. rewrite !andb_true_iff, !Z.leb_le, !Z.ltb_lt in I. split; rewrite ?V1, ?V2; lia.
Qed.
