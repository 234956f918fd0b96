(** The centred Fourier transforms in double precision, and the refusals of propagation with a given factor. *)
From Coq Require Import ZArith Reals Bool List Lia Lra Psatz String.
From Coquelicot Require Import Complex.
From Flocq Require Import Core BinarySingleNaN.
From Verif.Base Require Import Py F64 Arr Sums CSum Fft.
From Verif.Model Require Import PadCrop MftF FresnelF Fresnel.
From Verif.Spec Require Import MftFSpec NollFSpec FresnelSpec FresnelFSpec RefuseSpec.
From Verif.Proofs Require Import F64P F64N PadCropP NollFP MftFP RefuseP FresnelP FresnelFP FresnelFQ FresnelFR FresnelFEy FresnelFRound.
Import ListNotations.
Local Open Scope R_scope.
Local Notation B := (bpow radix2).

Definition span (a : arr C) : R := sqrt (IZR (nr a) * IZR (nc a)).
Lemma size_roll (a : arr C) s t : (0 < nr a)%Z -> (0 < nc a)%Z -> field_size (roll2 a s t) = field_size a.
Proof. intros Hr Hc. rewrite !field_size_nrm. cbn [roll2 nr nc at2]. apply (nrm_roll (nr a) (nc a) (at2 a)); auto. Qed.
Lemma centred_near eta exact f (a : arr c128) o : transform_ok eta exact f -> (0 < nr a <= 2 ^ 20)%Z -> (0 < nc a <= 2 ^ 20)%Z -> finite_field a -> field_size (cvals a) <= B 500 ->
  (do t <- exact (ifftshift (cvals a)); Ok (fftshift t)) = Ok o -> nr o = nr a -> nc o = nc a ->
  let r := fftshift (f (ifftshift a)) in nr r = nr a /\ nc r = nc a /\ finite_field r /\ field_dist (cvals r) o <= eta * field_size o + B (-900).
Proof.
  intros Hf Hr Hc Fa Sa Eo Ro Co r. set (b := ifftshift a) in *.
  destruct (Hf b) as (o' & E' & R1 & C1 & F1 & D1).
  - exact Hr.
  - exact Hc.
  - intros i j [Hi Hj]. cbn [b ifftshift roll2 at2 nr nc] in *. apply Fa. split; apply Z.mod_pos_bound; lia.
  - change (cvals b) with (ifftshift (cvals a)). unfold ifftshift. rewrite size_roll; [exact Sa|cbn; lia|cbn; lia].
  - change (cvals b) with (ifftshift (cvals a)) in E'. rewrite E' in Eo. cbn [bind] in Eo. injection Eo as <-. cbn [b ifftshift roll2 nr nc] in R1, C1. cbn [fftshift roll2 nr nc] in Ro, Co.
    change (nr r) with (nr (f b)). change (nc r) with (nc (f b)). split; [exact R1|]. split; [exact C1|].
    split. { intros i j [Hi Hj]. cbn [r fftshift roll2 at2 nr nc] in *. apply F1. split; apply Z.mod_pos_bound; lia. }
    assert (En : field_size (fftshift o') = field_size o') by (unfold fftshift; apply size_roll; lia). rewrite En.
    eapply Rle_trans; [|exact D1]. right. rewrite !field_dist_nrm. cbn [cvals nr nc at2]. change (nr r) with (nr (f b)). change (nc r) with (nc (f b)). rewrite R1, C1.
    rewrite <- (nrm_roll (nr a) (nc a) (fun i j => cval (at2 (f b) i j) - at2 o' i j)%C (nr a / 2) (nc a / 2)) by lia. apply nrm_ext. intros k l _ _. unfold r. cbn [fftshift roll2 at2].
    rewrite R1, C1, Ro, Co. reflexivity.
Qed.
Lemma span_bounds (a : arr C) : (0 < nr a <= 2 ^ 20)%Z -> (0 < nc a <= 2 ^ 20)%Z -> 1 <= span a <= B 20.
Proof.
  intros Hr Hc. assert (1 <= IZR (nr a)) by (apply IZR_le; lia). assert (1 <= IZR (nc a)) by (apply IZR_le; lia). assert (IZR (nr a) <= B 20) by (change (B 20) with (IZR (2 ^ 20)); apply IZR_le; lia).
  assert (IZR (nc a) <= B 20) by (change (B 20) with (IZR (2 ^ 20)); apply IZR_le; lia). unfold span. split; [rewrite <- sqrt_1; apply sqrt_le_1_alt; nra|].
  rewrite <- (sqrt_square (B 20)) by apply bpow_ge_0. apply sqrt_le_1_alt. apply Rmult_le_compat; lra.
Qed.
Lemma fft_size (e o : arr C) : do_fft e = Ok o -> field_size o = span e * field_size e.
Proof. intros E. unfold field_size. rewrite (fft_parseval e o E). apply sqrt_mult_alt. unfold energy. destruct (do_fft e) eqn:Q; [|discriminate]. 
  destruct (Z_lt_le_dec 0 (nr e)) as [Hn|Hn]; [destruct (Z_lt_le_dec 0 (nc e)) as [Hm|Hm]|].
  - apply Rmult_le_pos; apply IZR_le; lia.
  - destruct (fft_empty e); [lia|congruence].
  - destruct (fft_empty e); [lia|congruence].
Qed.
Lemma fft_dist (e f o p : arr C) : nr e = nr f -> nc e = nc f -> (0 < nr e)%Z -> (0 < nc e)%Z -> do_fft e = Ok o -> do_fft f = Ok p -> field_dist o p = span e * field_dist e f.
Proof.
  intros A D Hr Hc Eo Ep. destruct (do_fft_ok e Hr Hc) as (o' & E1 & A1 & D1 & T1). assert (o' = o) by congruence. subst o'. destruct (do_fft_ok f) as (p' & E2 & A2 & D2 & T2); try lia. assert (p' = p) by congruence. subst p'.
  set (d := Arr (nr e) (nc e) (fun i j => at2 e i j - at2 f i j)%C). destruct (do_fft_ok d Hr Hc) as (q & Eq & Aq & Dq & Tq). change (field_dist e f) with (field_size d). change (span e) with (span d). rewrite <- (fft_size d q Eq).
  rewrite field_dist_nrm, field_size_nrm. rewrite A1, D1, Aq, Dq. cbn [d nr nc]. apply nrm_ext. intros k l _ _. rewrite T1, T2, Tq, !spectrum_cdft. cbn [d nr nc at2]. rewrite cdft2_sub, A, D. reflexivity.
Qed.
Lemma ifft_back (e g : arr C) : do_ifft e = Ok g -> (0 < nr e)%Z -> (0 < nc e)%Z -> nr g = nr e /\ nc g = nc e /\ exists o, do_fft g = Ok o /\ aeq o e.
Proof.
  intros E Hr Hc. destruct (do_ifft_ok e Hr Hc) as (g' & E' & A & D & _). assert (g' = g) by congruence. subst g'. split; auto. split; auto. destruct (do_fft_ok g) as (o & Eo & _); try lia. exists o. split; auto. apply (fft_ifft e g o); auto.
Qed.
Lemma ifft_size (e g : arr C) : do_ifft e = Ok g -> (0 < nr e)%Z -> (0 < nc e)%Z -> field_size e = span e * field_size g.
Proof. intros E Hr Hc. destruct (ifft_back e g E Hr Hc) as (A & D & o & Eo & Q). rewrite <- (aeq_size _ _ Q), (fft_size g o Eo). unfold span. rewrite A, D. reflexivity. Qed.
Lemma ifft_dist (e f g h : arr C) : nr e = nr f -> nc e = nc f -> (0 < nr e)%Z -> (0 < nc e)%Z -> do_ifft e = Ok g -> do_ifft f = Ok h -> field_dist e f = span e * field_dist g h.
Proof.
  intros A D Hr Hc Eg Eh. destruct (ifft_back e g Eg Hr Hc) as (A1 & D1 & o & Eo & Q). destruct (ifft_back f h Eh) as (A2 & D2 & p & Ep & Q2); try lia.
  rewrite <- (aeq_dist _ _ f Q). rewrite <- (dist_aeq o p f); [|destruct Q as (? & ? & ?), Q2 as (? & ? & ?); congruence|destruct Q as (? & ? & ?), Q2 as (? & ? & ?); congruence|exact Q2].
  rewrite (fft_dist g h o p) by (auto; try congruence; lia). unfold span. rewrite A1, D1. reflexivity.
Qed.

Section Lib.
Variables (ffft fifft : arr c128 -> arr c128) (eta : R).
Lemma centred_fft e : transform_ok eta fft2 ffft -> (0 < nr e <= 2 ^ 20)%Z -> (0 < nc e <= 2 ^ 20)%Z -> finite_field e -> field_size (cvals e) <= B 500 ->
  exists r, do_fft_f ffft e = Ok r /\ nr r = nr e /\ nc r = nc e /\ finite_field r /\
    field_dist (cvals r) (Arr (nr e) (nc e) (spectrum (cvals e))) <= eta * (sqrt (IZR (nr e) * IZR (nc e)) * field_size (cvals e)) + B (-900).
Proof.
  intros Hf Hr Hc Fe Se. destruct (do_fft_ok (cvals e)) as (o & Eo & A & D & T); [cbn; lia|cbn; lia|]. destruct (centred_near eta fft2 ffft e o Hf Hr Hc Fe Se Eo A D) as (R1 & C1 & F1 & D1).
  exists (fftshift (ffft (ifftshift e))). split; [unfold do_fft_f; rewrite nonempty_true by lia; reflexivity|]. split; [exact R1|]. split; [exact C1|]. split; [exact F1|].
  rewrite (fft_size _ _ Eo) in D1. rewrite field_dist_nrm in *. cbn [cvals nr nc at2] in *. rewrite (nrm_ext _ _ _ (fun i j => cval (at2 (fftshift (ffft (ifftshift e))) i j) - at2 o i j)%C); [exact D1|]. intros i j _ _. rewrite T. reflexivity.
Qed.
Lemma centred_ifft e : transform_ok eta ifft2 fifft -> (0 < nr e <= 2 ^ 20)%Z -> (0 < nc e <= 2 ^ 20)%Z -> finite_field e -> field_size (cvals e) <= B 500 ->
  exists r g, do_ifft_f fifft e = Ok r /\ nr r = nr e /\ nc r = nc e /\ finite_field r /\ nr g = nr e /\ nc g = nc e /\
    (forall k l, (0 <= k < nr e)%Z -> (0 <= l < nc e)%Z -> spectrum g k l = cval (at2 e k l)) /\
    sqrt (IZR (nr e) * IZR (nc e)) * field_size g = field_size (cvals e) /\ field_dist (cvals r) g <= eta * field_size g + B (-900).
Proof.
  intros Hf Hr Hc Fe Se. destruct (do_ifft_ok (cvals e)) as (g & Eg & A & D & _); [cbn; lia|cbn; lia|]. destruct (centred_near eta ifft2 fifft e g Hf Hr Hc Fe Se Eg A D) as (R1 & C1 & F1 & D1).
  exists (fftshift (fifft (ifftshift e))), g. split; [unfold do_ifft_f; rewrite nonempty_true by lia; reflexivity|]. split; [exact R1|]. split; [exact C1|]. split; [exact F1|]. split; [exact A|]. split; [exact D|].
  destruct (ifft_back _ _ Eg) as (_ & _ & o & Eo & Q1 & Q2 & Q3); [cbn; lia|cbn; lia|]. split; [|split; [symmetry; apply (ifft_size _ _ Eg); cbn; lia|exact D1]].
  intros k l Hk Hl. destruct (do_fft_ok g) as (o' & Eo' & _ & _ & T); [cbn in *; lia|cbn in *; lia|]. assert (o' = o) by congruence. subst o'. rewrite <- T. rewrite Q3 by (split; cbn in *; lia). reflexivity.
Qed.
Hypothesis (Heta : 0 <= eta <= / 100).
Lemma fft_then_ifft e r : transform_ok eta fft2 ffft -> transform_ok eta ifft2 fifft -> (0 < nr e <= 2 ^ 20)%Z -> (0 < nc e <= 2 ^ 20)%Z -> finite_field e -> field_size (cvals e) <= B 450 -> do_fft_f ffft e = Ok r ->
  exists b, do_ifft_f fifft r = Ok b /\ nr b = nr e /\ nc b = nc e /\ finite_field b /\ field_dist (cvals b) (cvals e) <= 3 * eta * field_size (cvals e) + B (-890).
Proof.
  intros Hf Hi Hr Hc Fe Se E. assert (L50 : B 450 <= B 500) by (apply bpow_le; lia). assert (L1 : 1 <= B 450) by (change 1 with (B 0); apply bpow_le; lia).
  destruct (do_fft_ok (cvals e)) as (o & Eo & A & D & T); [cbn; lia|cbn; lia|]. destruct (centred_near eta fft2 ffft e o Hf Hr Hc Fe ltac:(lra) Eo A D) as (R1 & C1 & F1 & D1). unfold do_fft_f in E. rewrite nonempty_true in E by lia. cbn [guard bind] in E. injection E as <-.
  set (r := fftshift (ffft (ifftshift e))) in *. set (s := field_size (cvals e)) in *. assert (s0 : 0 <= s) by apply sqrt_pos. destruct (span_bounds (cvals e) Hr Hc) as [N1 N2]. set (N := span (cvals e)) in *.
  rewrite (fft_size _ _ Eo) in D1. fold s N in D1. set (t := B (-900)) in *. assert (t0 : 0 < t) by apply bpow_gt_0. assert (t1 : t <= 1) by (change 1 with (B 0); apply bpow_le; lia).
  assert (Ns : 0 <= N * s) by (apply Rmult_le_pos; lra). assert (eNs : 0 <= eta * (N * s) <= / 100 * (N * s)) by (split; [apply Rmult_le_pos; lra|apply Rmult_le_compat_r; lra]).
  assert (NsB : N * s <= B 20 * B 450) by (apply Rmult_le_compat; lra). rewrite <- bpow_plus in NsB. assert (B5 : 4 * B 470 <= B 500) by (apply Rle_trans with (B 2 * B 470); [change (B 2) with 4; lra|rewrite <- bpow_plus; apply bpow_le; lia]).
  assert (B4 : 1 <= B 470) by (change 1 with (B 0); apply bpow_le; lia). change (20 + 450)%Z with 470%Z in NsB.
  assert (Sr : field_size (cvals r) <= B 500) by (eapply Rle_trans; [apply (size_le _ o); [cbn in *; congruence|cbn in *; congruence]|]; rewrite (fft_size _ _ Eo); fold s N; lra).
  assert (Hr' : (0 < nr r <= 2 ^ 20)%Z) by lia. assert (Hc' : (0 < nc r <= 2 ^ 20)%Z) by lia.
  destruct (do_ifft_ok (cvals r)) as (g & Eg & A' & D' & _); [cbn in *; lia|cbn in *; lia|]. destruct (centred_near eta ifft2 fifft r g Hi Hr' Hc' F1 Sr Eg A' D') as (R2 & C2 & F2 & D2).
  exists (fftshift (fifft (ifftshift r))). split; [unfold do_ifft_f; rewrite nonempty_true by lia; reflexivity|]. split; [congruence|]. split; [congruence|]. split; [exact F2|].
  set (b := fftshift (fifft (ifftshift r))) in *. destruct (do_ifft_ok o) as (h & Eh & Ah & Dh & _); [cbn in *; lia|cbn in *; lia|]. pose proof (ifft_fft _ _ _ Eo Eh) as Q.
  assert (Dg : field_dist g h <= eta * s + t).
  { apply Rmult_le_reg_l with N; [lra|]. assert (Es : span (cvals r) = N) by (unfold N, span; cbn [cvals nr nc]; congruence). rewrite <- Es at 1. rewrite <- (ifft_dist (cvals r) o g h); auto; try (cbn in *; congruence); try (cbn in *; lia). assert (t <= N * t) by nra. lra. }
  assert (Sg : field_size g <= s + (eta * s + t)).
  { eapply Rle_trans; [apply (size_le _ h); cbn in *; congruence|]. rewrite (aeq_size _ _ Q). fold s. lra. }
  rewrite <- (dist_aeq (cvals b) h (cvals e)); [|cbn in *; congruence|cbn in *; congruence|exact Q]. eapply Rle_trans; [apply (dist_tri _ g); cbn in *; congruence|].
  assert (eta * field_size g <= eta * (s + (eta * s + t))) by (apply Rmult_le_compat_l; lra). assert (0 <= eta * s <= / 100 * s) by (split; [apply Rmult_le_pos; lra|apply Rmult_le_compat_r; lra]).
  assert (eta * (eta * s) <= / 100 * (eta * s)) by (apply Rmult_le_compat_r; lra). assert (eta * t <= / 100 * t) by (apply Rmult_le_compat_r; lra).
  assert (10 * t <= B (-890)) by (apply Rle_trans with (B 10 * B (-900)); [change (B 10) with 1024; fold t; lra|rewrite <- bpow_plus; apply bpow_le; lia]). fold t in D2. lra.
Qed.
End Lib.
Lemma fft_f_refused ffft e err : do_fft_f ffft e = Err err <-> refused [((0 < nr e)%Z /\ (0 < nc e)%Z, ValueError)] err.
Proof. unfold do_fft_f. apply check_step; [unfold nonempty; rewrite andb_true_iff, !Z.ltb_lt; tauto|]. intros _. rewrite refused_nil. split; [discriminate|tauto]. Qed.
Lemma ifft_f_refused ffft e err : do_ifft_f ffft e = Err err <-> refused [((0 < nr e)%Z /\ (0 < nc e)%Z, ValueError)] err.
Proof. unfold do_ifft_f. apply check_step; [unfold nonempty; rewrite andb_true_iff, !Z.ltb_lt; tauto|]. intros _. rewrite refused_nil. split; [discriminate|tauto]. Qed.

Lemma bc_ok_iff a b : bc_ok a b = true <-> b = a \/ b = 1%Z.
Proof. unfold bc_ok. rewrite orb_true_iff, !Z.eqb_eq. tauto. Qed.
Lemma fresnelprop_fp_f_refused ffft fifft : keeps_shape ffft -> keeps_shape fifft -> forall e z nx fp err, wf e ->
  fresnelprop_fp_f ffft fifft e z nx fp = Err err <-> refused (fresnelprop_fp_f_needs e z nx fp) err.
Proof.
  intros Kf Ki e z nx fp err We. unfold fresnelprop_fp_f, fresnelprop_fp_f_needs. apply check_step; [apply Z.ltb_lt|]. intros Hn. destruct (feq z fzero).
  { rewrite !refused_iff, refused_nil. split; [discriminate|]. intros A. repeat (destruct A as [[A _]|[_ A]]; [exfalso; apply A; intros; discriminate|]). destruct A. }
  unfold propagate_f. destruct (pad_crop_ok e nx nx (fzero, fzero) We Hn Hn) as (u0 & E0 & A0 & D0 & _). rewrite E0. cbn [bind]. unfold do_fft_f. rewrite nonempty_true by lia. cbn [guard bind].
  set (f := fftshift (ffft (ifftshift u0))). destruct (Kf (ifftshift u0)) as [Q1 Q2]. cbn [ifftshift roll2 nr nc] in Q1, Q2.
  assert (R1 : nr f = nx) by (change (nr f) with (nr (ffft (ifftshift u0))); congruence). assert (C1 : nc f = nx) by (change (nc f) with (nc (ffft (ifftshift u0))); congruence).
  unfold imul_f. rewrite R1, C1. destruct (bc_ok nx (nr fp) && bc_ok nx (nc fp)) eqn:K; cbn [guard bind].
  - rewrite andb_true_iff, !bc_ok_iff in K. set (g := Arr nx nx _). unfold do_ifft_f. rewrite nonempty_true by (cbn; lia). cbn [guard bind].
    set (o := fftshift (fifft (ifftshift g))). destruct (Ki (ifftshift g)) as [Q3 Q4]. cbn [ifftshift roll2 nr nc g] in Q3, Q4.
    assert (R2 : nr o = nx) by exact Q3. assert (C2 : nc o = nx) by exact Q4. rewrite !refused_iff, refused_nil.
    destruct (Z_lt_le_dec 0 (nr e)) as [Hr|Hr]; [destruct (Z_lt_le_dec 0 (nc e)) as [Hc|Hc]|].
    + assert (Wo : wf o) by (split; lia). destruct (pad_crop_ok o (nr e) (nc e) (fzero, fzero) Wo Hr Hc) as (out & -> & _). split; [discriminate|tauto].
    + unfold pad_crop. destruct (Z.ltb_spec 0 (nr e)); [|lia]. destruct (Z.ltb_spec 0 (nc e)); [lia|]. cbn [guard bind]. split; [intros [= <-]; right; split; [auto|]; left; split; [lia|auto]|intros [[N _]|[_ [[_ ->]|[_ []]]]]; [tauto|reflexivity]].
    + unfold pad_crop. destruct (Z.ltb_spec 0 (nr e)); [lia|]. cbn [guard bind]. split; [intros [= <-]; right; split; [auto|]; left; split; [lia|auto]|intros [[N _]|[_ [[_ ->]|[_ []]]]]; [tauto|reflexivity]].
  - assert (K' : ~ ((nr fp = nx \/ nr fp = 1%Z) /\ (nc fp = nx \/ nc fp = 1%Z))) by (rewrite <- !bc_ok_iff, <- andb_true_iff, K; discriminate).
    rewrite refused_iff. split; [intros [= <-]; left; split; [auto|reflexivity]|]. intros [[_ ->]|[N _]]; [reflexivity|tauto].
Qed.
Lemma factor_same pw h ex ffft fifft e lam z nx ppm out fp : fresnelprop_f pw h ex ffft fifft e lam z nx ppm = Ok out -> get_fp_f pw h ex lam z nx ppm = Ok fp -> fresnelprop_fp_f ffft fifft e z nx fp = Ok out.
Proof.
  unfold fresnelprop_f, get_fp_f, fresnelprop_fp_f. destruct (fle lam fzero); cbn [negb guard bind]; [discriminate|]. destruct (0 <? nx)%Z; cbn [guard bind]; [|discriminate]. destruct (fle ppm fzero); cbn [negb guard bind]; [discriminate|].
  destruct (feq z fzero); [auto|]. destruct (n_samples_min_f pw lam z ppm) as [k|]; cbn [bind]; [|discriminate]. destruct (Z.min (nr e) (nc e) <? k)%Z; cbn [negb guard bind]; [discriminate|]. destruct (nx <? k)%Z; cbn [negb guard bind]; [discriminate|].
  intros E [= <-]. exact E.
Qed.
