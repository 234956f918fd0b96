From Coq Require Import ZArith Bool List Reals Lra Lia.
From Flocq Require Import Core.
From Coquelicot Require Import Complex.
From Verif.Base Require Import Py Arr Sums CSum Fft.
From Verif.Model Require Import PadCrop Fresnel.
From Verif.Spec Require Import FresnelSpec.
From Verif.Proofs Require Import PadCropP MathP.
Import ListNotations.
Open Scope Z_scope.

Lemma spectrum_cdft e k l : spectrum e k l = cdft2 (-1) (nr e) (nc e) (at2 e) k l.
Proof.
  rewrite cdft2_sum. unfold spectrum. apply csum2_ext. intros i j Hi Hj. f_equal.
  unfold w. rewrite <- cis_add. f_equal. rewrite !(mult_IZR (-1)). unfold Rdiv. ring.
Qed.
Lemma energy_mod2 e : energy e = rsum2 (fun i j => Cmod2 (at2 e i j)) (nr e) (nc e).
Proof. apply rsum2_ext. intros. unfold Cmod2. ring. Qed.
Lemma aeq_energy e f : aeq e f -> energy e = energy f.
Proof.
  intros (H1 & H2 & H3). unfold energy. rewrite <- H1, <- H2. apply rsum2_ext. intros.
  rewrite H3 by (split; auto). reflexivity.
Qed.

Lemma aeq_spectrum e f k l : aeq e f -> spectrum e k l = spectrum f k l.
Proof.
  intros (H1 & H2 & H3). unfold spectrum. rewrite <- H1, <- H2. apply csum2_ext. intros.
  rewrite H3 by (split; auto). reflexivity.
Qed.
Lemma spectrum_inj e f : nr e = nr f -> nc e = nc f ->
  (forall k l, in_arr e k l -> spectrum e k l = spectrum f k l) -> aeq e f.
Proof.
  intros A B H. split; [auto|]. split; [auto|]. intros i j [Hi Hj].
  assert (Hn : RtoC (IZR (nr e)) <> RtoC 0) by (intros Z0; apply RtoC_inj, eq_IZR in Z0; lia).
  assert (Hm : RtoC (IZR (nc e)) <> RtoC 0) by (intros Z0; apply RtoC_inj, eq_IZR in Z0; lia).
  assert (Q : (IZR (nr e) * IZR (nc e) * at2 e i j = IZR (nr e) * IZR (nc e) * at2 f i j)%C).
  { rewrite <- (cdft2_inv (-1) (nr e) (nc e) (at2 e)) by lia.
    rewrite <- (cdft2_inv (-1) (nr e) (nc e) (at2 f)) by lia. apply cdft2_ext. intros k l Hk Hl.
    specialize (H k l (conj Hk Hl)). rewrite !spectrum_cdft, <- A, <- B in H. exact H. }
  replace (at2 e i j) with (IZR (nr e) * IZR (nc e) * at2 e i j / (IZR (nr e) * IZR (nc e)))%C by (field; auto).
  rewrite Q. field. auto.
Qed.

Lemma do_fft_ok e : 0 < nr e -> 0 < nc e ->
  exists o, do_fft e = Ok o /\ nr o = nr e /\ nc o = nc e /\ forall k l, at2 o k l = spectrum e k l.
Proof.
  intros Hn Hm. destruct (fftshift_fft2 e Hn Hm) as (o & E & A & B & D). unfold do_fft. rewrite E. cbn [bind].
  eexists; split; [reflexivity|]. repeat split; auto. intros. rewrite spectrum_cdft. apply D.
Qed.
Lemma do_ifft_ok e : 0 < nr e -> 0 < nc e ->
  exists o, do_ifft e = Ok o /\ nr o = nr e /\ nc o = nc e /\
  forall k l, at2 o k l = (cdft2 1 (nr e) (nc e) (at2 e) k l / RtoC (IZR (nr e) * IZR (nc e)))%C.
Proof.
  intros Hn Hm. destruct (fftshift_ifft2 e Hn Hm) as (o & E & A & B & D). unfold do_ifft. rewrite E. cbn [bind].
  eexists; split; [reflexivity|]. repeat split; auto.
Qed.
Lemma fft_empty e : ~ (0 < nr e /\ 0 < nc e) -> do_fft e = Err ValueError /\ do_ifft e = Err ValueError.
Proof.
  intros H. unfold do_fft, do_ifft, fft2, ifft2, nonempty. cbn [ifftshift roll2 nr nc].
  destruct (Z.ltb_spec 0 (nr e)), (Z.ltb_spec 0 (nc e)); cbn; auto; lia.
Qed.
Lemma RtoC_nm n m : 0 < n -> 0 < m -> RtoC (IZR n * IZR m) <> RtoC 0.
Proof.
  intros Hn Hm H. apply RtoC_inj in H. apply Rmult_integral in H. destruct H as [H|H]; apply eq_IZR in H; lia.
Qed.
Lemma ifft_fft e f g : do_fft e = Ok f -> do_ifft f = Ok g -> aeq g e.
Proof.
  intros H1 H2. assert (Hp : 0 < nr e /\ 0 < nc e).
  { destruct (Z.lt_decidable 0 (nr e)) as [Hn|Hn].
    - destruct (Z.lt_decidable 0 (nc e)) as [Hm|Hm]; [auto|]. destruct (fft_empty e); [tauto|congruence].
    - destruct (fft_empty e); [tauto|congruence]. }
  destruct Hp as [Hn Hm]. destruct (do_fft_ok e Hn Hm) as (o & E & A & B & D).
  assert (o = f) by congruence. subst o. rewrite <- A in Hn. rewrite <- B in Hm.
  destruct (do_ifft_ok f Hn Hm) as (o & E' & A' & B' & D'). assert (o = g) by congruence. subst o.
  split; [congruence|]. split; [congruence|]. intros i j [Hi Hj]. rewrite D'.
  rewrite (cdft2_ext _ _ _ _ (cdft2 (-1) (nr f) (nc f) (at2 e))).
  - change 1 with (- (-1)). rewrite cdft2_inv by lia. rewrite RtoC_mult. field.
    pose proof (RtoC_nm _ _ Hn Hm) as Q. rewrite RtoC_mult in Q.
    split; intros Z0; apply Q; rewrite Z0; ring.
  - intros. rewrite D, spectrum_cdft, A, B. reflexivity.
Qed.
Lemma fft_ifft e f g : do_ifft e = Ok f -> do_fft f = Ok g -> aeq g e.
Proof.
  intros H1 H2. assert (Hp : 0 < nr e /\ 0 < nc e).
  { destruct (Z.lt_decidable 0 (nr e)) as [Hn|Hn].
    - destruct (Z.lt_decidable 0 (nc e)) as [Hm|Hm]; [auto|]. destruct (fft_empty e); [tauto|congruence].
    - destruct (fft_empty e); [tauto|congruence]. }
  destruct Hp as [Hn Hm]. destruct (do_ifft_ok e Hn Hm) as (o & E & A & B & D).
  assert (o = f) by congruence. subst o. rewrite <- A in Hn. rewrite <- B in Hm.
  destruct (do_fft_ok f Hn Hm) as (o & E' & A' & B' & D'). assert (o = g) by congruence. subst o.
  split; [congruence|]. split; [congruence|]. intros i j [Hi Hj]. rewrite D', spectrum_cdft.
  rewrite (cdft2_ext _ _ _ _ (fun k l => (/ RtoC (IZR (nr e) * IZR (nc e))) * cdft2 1 (nr f) (nc f) (at2 e) k l)%C).
  - rewrite cdft2_scal. change (-1) with (- (1)). rewrite cdft2_inv by lia. rewrite RtoC_mult, A, B. field.
    pose proof (RtoC_nm _ _ Hn Hm) as Q. rewrite RtoC_mult, A, B in Q.
    split; intros Z0; apply Q; rewrite Z0; ring.
  - intros. rewrite D, A, B. unfold Cdiv. ring.
Qed.
Lemma spectrum_centre e : 0 < nr e -> 0 < nc e ->
  spectrum e (nr e / 2) (nc e / 2) = csum2 (at2 e) (nr e) (nc e).
Proof.
  intros. unfold spectrum. apply csum2_ext. intros i j Hi Hj. rewrite !Z.sub_diag, !Z.mul_0_r.
  replace (- (2 * PI) * (0 / IZR (nr e) + 0 / IZR (nc e)))%R with 0%R by (unfold Rdiv; ring).
  rewrite cis_0. ring.
Qed.
Lemma fft_parseval e f : do_fft e = Ok f -> energy f = (IZR (nr e) * IZR (nc e) * energy e)%R.
Proof.
  intros H1. assert (Hp : 0 < nr e /\ 0 < nc e).
  { destruct (Z.lt_decidable 0 (nr e)) as [Hn|Hn].
    - destruct (Z.lt_decidable 0 (nc e)) as [Hm|Hm]; [auto|]. destruct (fft_empty e); [tauto|congruence].
    - destruct (fft_empty e); [tauto|congruence]. }
  destruct Hp as [Hn Hm]. destruct (do_fft_ok e Hn Hm) as (o & E & A & B & D).
  assert (o = f) by congruence. subst o. rewrite !energy_mod2, A, B.
  rewrite <- (cdft2_parseval (-1)) by lia. apply rsum2_ext. intros. rewrite D, spectrum_cdft. reflexivity.
Qed.

(** *** Energy of padded / cropped arrays *)
Lemma rsum_shift_le (f : Z -> R) h n d : (forall k, 0 <= k < n -> (0 <= f k)%R) ->
  (rsum (fun i => if ((0 <=? i + d) && (i + d <? n))%Z then f (i + d)%Z else 0) h <= rsum f n)%R.
Proof.
  intros Hf. destruct (Z.le_gt_cases n 0) as [Hn|Hn].
  { rewrite (rsum_0 f) by lia. rewrite rsum_all_zero; [lra|]. intros k Hk.
    destruct (Z.leb_spec 0 (k + d)), (Z.ltb_spec (k + d) n); cbn; auto; lia. }
  rewrite (rsum_ext _ (fun i => rsum (fun k => if (k =? i + d)%Z then f k else 0) n)%R).
  - rewrite rsum_swap. apply rsum_le. intros k Hk.
    destruct (Z.le_gt_cases 0 (k - d)) as [H1|H1]; [destruct (Z.lt_ge_cases (k - d) h) as [H2|H2]|].
    + rewrite (rsum_ext _ (fun i => if (i =? k - d)%Z then f k else 0)%R).
      * rewrite (rsum_delta (fun _ => f k)) by lia. lra.
      * intros i Hi. destruct (Z.eqb_spec k (i + d)), (Z.eqb_spec i (k - d)); auto; lia.
    + rewrite rsum_all_zero; [apply Hf; auto|]. intros i Hi. destruct (Z.eqb_spec k (i + d)); auto; lia.
    + rewrite rsum_all_zero; [apply Hf; auto|]. intros i Hi. destruct (Z.eqb_spec k (i + d)); auto; lia.
  - intros i Hi. destruct (Z.leb_spec 0 (i + d)), (Z.ltb_spec (i + d) n); cbn [andb].
    2-4: symmetry; apply rsum_all_zero; intros k Hk; destruct (Z.eqb_spec k (i + d)); auto; lia.
    rewrite rsum_delta by lia. reflexivity.
Qed.
Lemma rsum_shift_eq (f : Z -> R) h n d : 0 <= n -> d <= 0 -> n - d <= h ->
  (rsum (fun i => if ((0 <=? i + d) && (i + d <? n))%Z then f (i + d)%Z else 0) h = rsum f n)%R.
Proof.
  intros Hn Hd Hh. rewrite <- (rsum_window f h (- d) n) by lia. apply rsum_ext. intros k Hk.
  destruct (Z.leb_spec 0 (k + d)), (Z.ltb_spec (k + d) n), (Z.leb_spec (- d) k), (Z.ltb_spec k (- d + n));
    cbn [andb]; try lia; auto. f_equal. lia.
Qed.
Lemma pad_crop_energy_form (a out : arr C) h w0 : wf a -> 0 < h -> 0 < w0 ->
  pad_crop a [h; w0] (RtoC 0) = Ok out ->
  energy out = rsum (fun i => if ((0 <=? i + (nr a / 2 - h / 2)) && (i + (nr a / 2 - h / 2) <? nr a))%Z
    then (fun r => rsum (fun j => if ((0 <=? j + (nc a / 2 - w0 / 2)) && (j + (nc a / 2 - w0 / 2) <? nc a))%Z
        then (fun c => Cmod2 (at2 a r c)) (j + (nc a / 2 - w0 / 2))%Z else 0%R) w0) (i + (nr a / 2 - h / 2))%Z
    else 0%R) h.
Proof.
  intros Hw Hh Hw0 E. destruct (pad_crop_ok a h w0 (RtoC 0) Hw Hh Hw0) as (o & E' & A & B & D).
  assert (o = out) by congruence. subst o. rewrite energy_mod2, A, B. unfold rsum2. apply rsum_ext. intros i Hi.
  destruct ((0 <=? i + (nr a / 2 - h / 2)) && (i + (nr a / 2 - h / 2) <? nr a)) eqn:Er.
  - apply rsum_ext. intros j Hj. rewrite D by auto. cbv zeta. unfold in_arrb.
    replace (i - h / 2 + nr a / 2) with (i + (nr a / 2 - h / 2)) by ring.
    replace (j - w0 / 2 + nc a / 2) with (j + (nc a / 2 - w0 / 2)) by ring. rewrite Er. cbn [andb].
    destruct ((0 <=? j + (nc a / 2 - w0 / 2)) && (j + (nc a / 2 - w0 / 2) <? nc a)); auto. apply Cmod2_0.
  - apply rsum_all_zero. intros j Hj. rewrite D by auto. cbv zeta. unfold in_arrb.
    replace (i - h / 2 + nr a / 2) with (i + (nr a / 2 - h / 2)) by ring. rewrite Er. cbn [andb]. apply Cmod2_0.
Qed.
Lemma pad_crop_energy_le (a out : arr C) h w0 : wf a ->
  pad_crop a [h; w0] (RtoC 0) = Ok out -> (energy out <= energy a)%R.
Proof.
  intros Hw E. destruct (pad_crop_inv a _ _ _ Hw E) as (h' & w' & Eq & Hh & Hw0 & _).
  injection Eq as <- <-. rewrite (pad_crop_energy_form a out h w0) by auto. rewrite energy_mod2.
  eapply Rle_trans; [apply (rsum_shift_le (fun r => rsum (fun j => if ((0 <=? j + (nc a / 2 - w0 / 2)) && (j + (nc a / 2 - w0 / 2) <? nc a))%Z
        then (fun c => Cmod2 (at2 a r c)) (j + (nc a / 2 - w0 / 2))%Z else 0%R) w0) h (nr a))|].
  - intros k Hk. apply rsum_nonneg. intros j Hj. destruct (_ && _); [apply Cmod2_nonneg|lra].
  - apply rsum_le. intros k Hk. apply (rsum_shift_le (fun c => Cmod2 (at2 a k c))). intros. apply Cmod2_nonneg.
Qed.
Lemma pad_crop_energy_eq (a out : arr C) h w0 : wf a -> nr a <= h -> nc a <= w0 ->
  pad_crop a [h; w0] (RtoC 0) = Ok out -> energy out = energy a.
Proof.
  intros Hw L1 L2 E. destruct (pad_crop_inv a _ _ _ Hw E) as (h' & w' & Eq & Hh & Hw0 & _).
  injection Eq as <- <-. rewrite (pad_crop_energy_form a out h w0) by auto. rewrite energy_mod2. destruct Hw.
  etransitivity; [apply (rsum_shift_eq (fun r => rsum (fun j => if ((0 <=? j + (nc a / 2 - w0 / 2)) && (j + (nc a / 2 - w0 / 2) <? nc a))%Z
        then (fun c => Cmod2 (at2 a r c)) (j + (nc a / 2 - w0 / 2))%Z else 0%R) w0) h (nr a)); Z.div_mod_to_equations; lia|].
  apply rsum_ext. intros k Hk. apply (rsum_shift_eq (fun c => Cmod2 (at2 a k c))); Z.div_mod_to_equations; lia.
Qed.

(** *** Propagation *)
Lemma pos_real_true x : (0 < x)%R -> pos_real x = true.
Proof. unfold pos_real. destruct (Rlt_dec 0 x); auto; contradiction. Qed.
Lemma pos_real_iff x : pos_real x = true <-> (0 < x)%R.
Proof. unfold pos_real. destruct (Rlt_dec 0 x); split; auto; discriminate. Qed.
Lemma fp_array_transfer lam z nx ppm k l : 0 < nx ->
  at2 (fp_array lam z nx ppm) k l = fresnel_transfer lam z ppm nx k l.
Proof.
  intros Hn. cbn. unfold fresnel_transfer. f_equal. f_equal. f_equal.
  set (x := IZR (l - nx / 2)). set (y := IZR (k - nx / 2)).
  assert (P : (0 <= x * x + y * y)%R).
  { pose proof (Rle_0_sqr x). pose proof (Rle_0_sqr y). unfold Rsqr in *. lra. }
  replace (sqrt (x * x + y * y) * (ppm / IZR nx) * (sqrt (x * x + y * y) * (ppm / IZR nx) * 1))%R
    with ((sqrt (x * x + y * y) * sqrt (x * x + y * y)) * (ppm / IZR nx) ^ 2)%R by ring.
  rewrite sqrt_sqrt by auto. unfold Rdiv. ring.
Qed.
Lemma n_samples_pos lam z ppm : (0 < lam)%R -> (z <> 0)%R -> (0 < ppm)%R -> 0 < n_samples_min lam z ppm.
Proof.
  intros H1 H2 H3. unfold n_samples_min. apply lt_IZR.
  eapply Rlt_le_trans; [|apply Zceil_ub]. apply Rmult_lt_0_compat; [apply Rmult_lt_0_compat|]; auto.
  - apply Rabs_pos_lt; auto.
  - apply pow_lt; auto.
Qed.

(** The propagated field on the computation grid. *)
Definition grid_out (u : arr C) (nx : Z) (fp : arr C) (v : arr C) : Prop :=
  nr v = nx /\ nc v = nx /\
  (forall k l, 0 <= k < nx -> 0 <= l < nx ->
     spectrum v k l = (spectrum u k l * at2 fp k l)%C).
Lemma propagate_ok e nx fp : wf e -> 0 < nx -> nr fp = nx -> nc fp = nx -> 0 < nr e -> 0 < nc e ->
  exists u v out, pad_crop e [nx; nx] (RtoC 0) = Ok u /\ grid_out u nx fp v /\
    (forall i j, at2 v i j =
       (cdft2 1 nx nx (fun k l => cdft2 (-1) nx nx (at2 u) k l * at2 fp k l) i j / RtoC (IZR nx * IZR nx))%C) /\
    pad_crop v [nr e; nc e] (RtoC 0) = Ok out /\ propagate e nx fp = Ok out.
Proof.
  intros Hw Hn F1 F2 P1 P2. destruct (pad_crop_ok e nx nx (RtoC 0) Hw Hn Hn) as (u & E1 & A1 & B1 & _).
  destruct (do_fft_ok u) as (f & E2 & A2 & B2 & D2); [lia|lia|].
  set (g := Arr (nr f) (nc f) (fun i j => Cmult (at2 f i j) (at2 fp (bc_idx (nr fp) i) (bc_idx (nc fp) j)))).
  assert (E3 : imul f fp = Ok g).
  { unfold imul, bc_ok. rewrite F1, F2, A2, B2, A1, B1, Z.eqb_refl. unfold guard. cbn [andb orb bind].
    unfold g. rewrite A2, B2, A1, B1, F1, F2. reflexivity. }
  assert (G1 : nr g = nx) by (cbn; lia). assert (G2 : nc g = nx) by (cbn; lia).
  destruct (do_ifft_ok g) as (v & E4 & A4 & B4 & D4); [lia|lia|].
  assert (W : wf v) by (split; lia).
  destruct (pad_crop_ok v (nr e) (nc e) (RtoC 0) W P1 P2) as (out & E5 & _).
  assert (Gf : forall k l, 0 <= k < nx -> 0 <= l < nx ->
     at2 g k l = (cdft2 (-1) nx nx (at2 u) k l * at2 fp k l)%C).
  { intros k l Hk Hl. unfold g. cbn [at2]. rewrite D2, spectrum_cdft, A1, B1, F1, F2. f_equal.
    unfold bc_idx. destruct (Z.eqb_spec nx 1); auto.
    replace k with 0 by lia. replace l with 0 by lia. reflexivity. }
  assert (V : forall i j, at2 v i j =
       (cdft2 1 nx nx (fun k l => cdft2 (-1) nx nx (at2 u) k l * at2 fp k l) i j / RtoC (IZR nx * IZR nx))%C).
  { intros i j. rewrite D4, G1, G2. f_equal. apply cdft2_ext. intros. apply Gf; auto. }
  exists u, v, out. split; auto. split.
  - split; [lia|]. split; [lia|]. intros k l Hk Hl.
    assert (E6 : exists o, do_fft v = Ok o /\ nr o = nr v /\ nc o = nc v /\ forall k l, at2 o k l = spectrum v k l)
      by (apply do_fft_ok; lia).
    destruct E6 as (o & E6 & A6 & B6 & D6). pose proof (fft_ifft _ _ _ E4 E6) as Q.
    destruct Q as (Q1 & Q2 & Q3). rewrite <- D6, Q3 by (split; lia). rewrite Gf by auto.
    rewrite spectrum_cdft, A1, B1. reflexivity.
  - split; auto. split; auto. unfold propagate. rewrite E1. cbn [bind]. rewrite E2. cbn [bind].
    rewrite E3. cbn [bind]. rewrite E4. cbn [bind]. exact E5.
Qed.
Lemma grid_out_energy u nx fp v : 0 < nx -> nr u = nx -> nc u = nx -> grid_out u nx fp v ->
  (forall k l, Cmod2 (at2 fp k l) = 1%R) -> energy v = energy u.
Proof.
  intros Hn A B (A' & B' & D) Hf. rewrite !energy_mod2, A, B, A', B'.
  assert (N : (IZR nx * IZR nx <> 0)%R).
  { intros Z0. apply Rmult_integral in Z0. destruct Z0 as [Z0|Z0]; apply eq_IZR in Z0; lia. }
  apply (Rmult_eq_reg_l (IZR nx * IZR nx)); auto.
  rewrite <- (cdft2_parseval (-1) nx nx (at2 v)) by lia.
  rewrite <- (cdft2_parseval (-1) nx nx (at2 u)) by lia.
  apply rsum2_ext. intros k l Hk Hl. specialize (D k l Hk Hl). rewrite !spectrum_cdft, A, B, A', B' in D.
  rewrite D, Cmod2_mult, Hf. ring.
Qed.

Lemma fresnelprop_inv e lam z nx ppm out : fresnelprop e lam z nx ppm = Ok out ->
  (0 < lam)%R /\ 0 < nx /\ (0 < ppm)%R /\
  ((z = 0%R /\ out = e) \/
   (z <> 0%R /\ n_samples_min lam z ppm <= Z.min (nr e) (nc e) /\ 0 < nr e /\ 0 < nc e /\
    propagate e nx (fp_array lam z nx ppm) = Ok out)).
Proof.
  unfold fresnelprop, guard. destruct (pos_real lam) eqn:E1; [|discriminate]. cbn [bind].
  destruct (Z.ltb_spec 0 nx); [|discriminate]. cbn [bind].
  destruct (pos_real ppm) eqn:E3; [|discriminate]. cbn [bind].
  apply pos_real_iff in E1, E3. intros Hx. repeat split; auto.
  destruct (Req_EM_T z 0) as [Z0|Z0].
  - left. split; auto. congruence.
  - right. split; auto. pose proof (n_samples_pos lam z ppm E1 Z0 E3) as P.
    destruct (Z.ltb_spec (Z.min (nr e) (nc e)) (n_samples_min lam z ppm)); cbn [negb bind] in Hx; [discriminate|].
    repeat split; auto; lia.
Qed.
Lemma fresnelprop_defined e lam z nx ppm : wf e -> (0 < lam)%R -> 0 < nx -> (0 < ppm)%R ->
  (z = 0%R \/ (lam * Rabs z * ppm ^ 2 <= IZR (Z.min (nr e) (nc e)))%R) ->
  exists out, fresnelprop e lam z nx ppm = Ok out /\ nr out = nr e /\ nc out = nc e.
Proof.
  intros Hw H1 H2 H3 H4. unfold fresnelprop, guard. rewrite !pos_real_true by auto. cbn [bind].
  destruct (Z.ltb_spec 0 nx); [|lia]. cbn [bind]. destruct (Req_EM_T z 0) as [Z0|Z0].
  { exists e. auto. }
  destruct H4 as [H4|H4]; [contradiction|].
  assert (Q : n_samples_min lam z ppm <= Z.min (nr e) (nc e)) by (apply Zceil_glb; auto).
  pose proof (n_samples_pos lam z ppm H1 Z0 H3) as P.
  destruct (Z.ltb_spec (Z.min (nr e) (nc e)) (n_samples_min lam z ppm)); [lia|]. cbn [negb bind].
  destruct (propagate_ok e nx (fp_array lam z nx ppm)) as (u & v & out & _ & (V1 & V2 & _) & _ & E & E'); auto; try lia.
  exists out. split; auto. assert (Wv : wf v) by (split; lia).
  destruct (pad_crop_inv v _ _ _ Wv E) as (h' & w' & Eq & Hh & Hw0 & A & B & _).
  injection Eq as <- <-. auto.
Qed.
Lemma fresnelprop_errors e lam z nx ppm ex : wf e -> fresnelprop e lam z nx ppm = Err ex ->
  (ex = TypeError /\ ((lam <= 0)%R \/ nx <= 0 \/ (ppm <= 0)%R)) \/
  (ex = ValueError /\ z <> 0%R /\ (IZR (Z.min (nr e) (nc e)) < lam * Rabs z * ppm ^ 2)%R).
Proof.
  intros Hw E.
  destruct (Rlt_dec 0 lam) as [H1|H1];
    [|left; unfold fresnelprop, guard, pos_real in E; destruct (Rlt_dec 0 lam); [contradiction|];
      cbn in E; injection E as <-; split; auto; left; lra].
  destruct (Z.lt_decidable 0 nx) as [H2|H2].
  2:{ left. unfold fresnelprop, guard in E. rewrite pos_real_true in E by auto. cbn [bind] in E.
      destruct (Z.ltb_spec 0 nx); [lia|]. injection E as <-. split; [auto|lia]. }
  destruct (Rlt_dec 0 ppm) as [H3|H3].
  2:{ left. unfold fresnelprop, guard in E. rewrite pos_real_true in E by auto. cbn [bind] in E.
      destruct (Z.ltb_spec 0 nx); [|lia]. cbn [bind] in E. unfold pos_real in E.
      destruct (Rlt_dec 0 ppm); [contradiction|]. injection E as <-. split; auto. right; right; lra. }
  right. destruct (Req_EM_T z 0) as [Z0|Z0].
  { destruct (fresnelprop_defined e lam z nx ppm) as (o & Eo & _); auto. congruence. }
  destruct (Rle_dec (lam * Rabs z * ppm ^ 2) (IZR (Z.min (nr e) (nc e)))) as [L|L].
  { destruct (fresnelprop_defined e lam z nx ppm) as (o & Eo & _); auto. congruence. }
  split; [|split; auto; lra]. unfold fresnelprop, guard in E. rewrite !pos_real_true in E by auto. cbn [bind] in E.
  destruct (Z.ltb_spec 0 nx); [|lia]. cbn [bind] in E. destruct (Req_EM_T z 0); [contradiction|].
  destruct (Z.ltb_spec (Z.min (nr e) (nc e)) (n_samples_min lam z ppm)) as [Q|Q]; cbn [negb bind] in E.
  - congruence.
  - exfalso. apply L. eapply Rle_trans; [apply Zceil_ub|]. apply IZR_le. exact Q.
Qed.
(** What a successful call returns. *)
Lemma fresnelprop_spec e lam z nx ppm out : wf e -> fresnelprop e lam z nx ppm = Ok out -> z <> 0%R ->
  exists u v, pad_crop e [nx; nx] (RtoC 0) = Ok u /\ pad_crop v [nr e; nc e] (RtoC 0) = Ok out /\
    nr v = nx /\ nc v = nx /\ energy v = energy u /\
    forall k l, 0 <= k < nx -> 0 <= l < nx ->
      spectrum v k l = (spectrum u k l * fresnel_transfer lam z ppm nx k l)%C.
Proof.
  intros Hw E Hz. apply fresnelprop_inv in E. destruct E as (H1 & H2 & H3 & [[Z0 _]|(_ & Q & P1 & P2 & E)]); [contradiction|].
  destruct (propagate_ok e nx (fp_array lam z nx ppm)) as (u & v & o & Eu & G & _ & Ev & Eo); auto.
  assert (o = out) by congruence. subst o. exists u, v. split; auto. split; auto.
  pose proof (pad_crop_ok e nx nx (RtoC 0) Hw H2 H2) as (u' & Eu' & U1 & U2 & _).
  assert (u' = u) by congruence. subst u'.
  split; [apply G|]. split; [apply G|]. split.
  - apply (grid_out_energy u nx (fp_array lam z nx ppm) v); auto. intros. cbn [fp_array at2]. apply Cmod2_cis.
  - intros k l Hk Hl. destruct G as (_ & _ & G). rewrite G by auto. rewrite fp_array_transfer by auto. reflexivity.
Qed.
Lemma fresnelprop_energy_le e lam z nx ppm out : wf e -> fresnelprop e lam z nx ppm = Ok out ->
  (energy out <= energy e)%R.
Proof.
  intros Hw E. destruct (Req_EM_T z 0) as [Z0|Z0].
  - apply fresnelprop_inv in E. destruct E as (H1 & H2 & H3 & [[_ ->]|(Z1 & _)]); [lra|contradiction].
  - destruct (fresnelprop_spec e lam z nx ppm out Hw E Z0) as (u & v & Eu & Ev & V1 & V2 & En & _).
    pose proof (pad_crop_energy_le _ _ _ _ Hw Eu).
    apply fresnelprop_inv in E. destruct E as (H1 & H2 & H3 & _).
    assert (Wv : wf v) by (split; lia). pose proof (pad_crop_energy_le _ _ _ _ Wv Ev). lra.
Qed.
(** Field exactly on the grid. *)
Lemma fresnelprop_square e lam z ppm out : 0 < nr e -> nc e = nr e -> fresnelprop e lam z (nr e) ppm = Ok out ->
  nr out = nr e /\ nc out = nr e /\
  forall k l, 0 <= k < nr e -> 0 <= l < nr e ->
      spectrum out k l = (spectrum e k l * fresnel_transfer lam z ppm (nr e) k l)%C.
Proof.
  intros Hn Hc E. assert (Hw : wf e) by (split; lia). destruct (Req_EM_T z 0) as [Z0|Z0].
  - apply fresnelprop_inv in E. destruct E as (H1 & H2 & H3 & [[_ ->]|(Z1 & _)]); [|contradiction].
    repeat split; auto. intros k l Hk Hl. unfold fresnel_transfer. rewrite Z0.
    match goal with |- context [cis ?t] => replace t with 0%R by ring end. rewrite cis_0. ring.
  - destruct (fresnelprop_spec e lam z (nr e) ppm out Hw E Z0) as (u & v & Eu & Ev & V1 & V2 & En & S).
    rewrite <- Hc in Eu at 2. pose proof (pad_crop_same_lemma e u _ Hw Eu) as (U1 & U2 & U3).
    assert (Wv : wf v) by (split; lia).
    assert (Ev' : pad_crop v [nr v; nc v] (RtoC 0) = Ok out) by (rewrite V1, V2; rewrite Hc in Ev; exact Ev).
    pose proof (pad_crop_same_lemma v out _ Wv Ev') as (O1 & O2 & O3).
    split; [congruence|]. split; [congruence|]. intros k l Hk Hl.
    rewrite (aeq_spectrum out v) by (repeat split; auto). rewrite S by auto.
    rewrite (aeq_spectrum u e) by (repeat split; auto). reflexivity.
Qed.
Lemma transfer_add lam z1 z2 ppm n k l :
  fresnel_transfer lam (z1 + z2) ppm n k l =
  (fresnel_transfer lam z1 ppm n k l * fresnel_transfer lam z2 ppm n k l)%C.
Proof. unfold fresnel_transfer. rewrite <- cis_add. f_equal. ring. Qed.
Lemma fresnelprop_compose e lam z1 z2 ppm f g h : 0 < nr e -> nc e = nr e ->
  fresnelprop e lam z1 (nr e) ppm = Ok f -> fresnelprop f lam z2 (nr e) ppm = Ok g ->
  fresnelprop e lam (z1 + z2) (nr e) ppm = Ok h -> aeq g h.
Proof.
  intros Hn Hc E1 E2 E3.
  destruct (fresnelprop_square _ _ _ _ _ Hn Hc E1) as (A1 & B1 & D1).
  rewrite <- A1 in E2. destruct (fresnelprop_square f lam z2 ppm g) as (A2 & B2 & D2); try lia; auto.
  destruct (fresnelprop_square _ _ _ _ _ Hn Hc E3) as (A3 & B3 & D3).
  apply spectrum_inj; [lia|lia|]. intros k l [Hk Hl]. rewrite D2, D3, A1, D1, transfer_add by lia. ring.
Qed.
Lemma fresnelprop_inverse e lam z ppm f : 0 < nr e -> nc e = nr e ->
  fresnelprop e lam z (nr e) ppm = Ok f ->
  exists g, fresnelprop f lam (- z) (nr e) ppm = Ok g /\ aeq g e.
Proof.
  intros Hn Hc E1. destruct (fresnelprop_square _ _ _ _ _ Hn Hc E1) as (A1 & B1 & D1).
  pose proof (fresnelprop_inv _ _ _ _ _ _ E1) as (H1 & H2 & H3 & H4).
  destruct (fresnelprop_defined f lam (- z) (nr e) ppm) as (g & E2 & A2 & B2); auto; try (split; lia).
  { destruct H4 as [[-> _]|(_ & Q & _)]; [left; ring|]. right. rewrite Rabs_Ropp, A1, B1.
    eapply Rle_trans; [apply Zceil_ub|]. apply IZR_le. unfold n_samples_min in Q. lia. }
  exists g. split; auto.
  destruct (fresnelprop_defined e lam (z + - z) (nr e) ppm) as (h & E3 & _); auto; try (split; lia).
  { left; ring. }
  pose proof (fresnelprop_compose _ _ _ _ _ _ _ _ Hn Hc E1 E2 E3) as Q.
  apply fresnelprop_inv in E3. destruct E3 as (_ & _ & _ & [[_ ->]|(Z1 & _)]); auto. exfalso; apply Z1; ring.
Qed.
Lemma fresnelprop_square_energy e lam z ppm out : 0 < nr e -> nc e = nr e ->
  fresnelprop e lam z (nr e) ppm = Ok out -> energy out = energy e.
Proof.
  intros Hn Hc E1. apply Rle_antisym.
  - apply (fresnelprop_energy_le e lam z (nr e) ppm); auto. split; lia.
  - destruct (fresnelprop_square _ _ _ _ _ Hn Hc E1) as (A & B & _).
    destruct (fresnelprop_inverse _ _ _ _ _ Hn Hc E1) as (g & E2 & Q). rewrite <- (aeq_energy _ _ Q).
    apply (fresnelprop_energy_le out lam (- z) (nr e) ppm); auto. split; lia.
Qed.
Lemma fresnelprop_two_step e lam z nx ppm out : Z.min (nr e) (nc e) <= nx ->
  fresnelprop e lam z nx ppm = Ok out ->
  exists fp, get_fp lam z nx ppm = Ok fp /\ fresnelprop_fp e z nx fp = Ok out.
Proof.
  intros L E. apply fresnelprop_inv in E. destruct E as (H1 & H2 & H3 & H4).
  exists (fp_array lam z nx ppm). unfold get_fp, fresnelprop_fp, guard. rewrite !pos_real_true by auto. cbn [bind].
  destruct (Z.ltb_spec 0 nx); [|lia]. cbn [bind].
  assert (Q : n_samples_min lam z ppm <= nx).
  { destruct H4 as [[-> _]|(_ & Q & _)]; [|lia]. unfold n_samples_min. rewrite Rabs_R0.
    replace (lam * 0 * ppm ^ 2)%R with (IZR 0) by ring. rewrite Zceil_IZR. lia. }
  destruct (Z.ltb_spec nx (n_samples_min lam z ppm)); [lia|]. cbn [negb bind]. split; auto.
  destruct H4 as [[-> ->]|(Z0 & _ & _ & _ & E)]; destruct (Req_EM_T _ 0); auto; contradiction.
Qed.
Lemma fresnelprop_agree e lam z nx ppm out fp out' :
  fresnelprop e lam z nx ppm = Ok out -> get_fp lam z nx ppm = Ok fp -> fresnelprop_fp e z nx fp = Ok out' ->
  out' = out.
Proof.
  intros E1 E2 E3. apply fresnelprop_inv in E1. destruct E1 as (H1 & H2 & H3 & H4).
  unfold get_fp, fresnelprop_fp, guard in *. rewrite !pos_real_true in E2 by auto. cbn [bind] in E2.
  destruct (Z.ltb_spec 0 nx); [|lia]. cbn [bind] in E2, E3.
  destruct (Z.ltb_spec nx (n_samples_min lam z ppm)); [discriminate|]. cbn [negb bind] in E2. injection E2 as <-.
  destruct (Req_EM_T z 0) as [Z0|Z0]; destruct H4 as [[Z1 ->]|(Z1 & _ & _ & _ & E)]; try contradiction; congruence.
Qed.

Lemma pad_crop_lin a b (e1 e2 u1 u2 : arr C) h w0 : wf e1 -> nr e1 = nr e2 -> nc e1 = nc e2 ->
  pad_crop e1 [h; w0] (RtoC 0) = Ok u1 -> pad_crop e2 [h; w0] (RtoC 0) = Ok u2 ->
  exists u, pad_crop (lin_comb a b e1 e2) [h; w0] (RtoC 0) = Ok u /\ aeq u (lin_comb a b u1 u2).
Proof.
  intros Hw Q1 Q2 E1 E2. destruct (pad_crop_inv _ _ _ _ Hw E1) as (h' & w' & Eq & Hh & Hw0 & _).
  injection Eq as <- <-. assert (W2 : wf e2) by (destruct Hw; split; lia).
  assert (W : wf (lin_comb a b e1 e2)) by (destruct Hw; split; cbn; lia).
  destruct (pad_crop_ok e1 h w0 (RtoC 0) Hw Hh Hw0) as (x1 & X1 & A1 & B1 & D1).
  destruct (pad_crop_ok e2 h w0 (RtoC 0) W2 Hh Hw0) as (x2 & X2 & A2 & B2 & D2).
  destruct (pad_crop_ok _ h w0 (RtoC 0) W Hh Hw0) as (x & X & A & B & D).
  assert (x1 = u1) by congruence. assert (x2 = u2) by congruence. subst x1 x2.
  exists x. split; auto. split; [cbn; lia|]. split; [cbn; lia|]. intros i j [Hi Hj].
  rewrite A in Hi. rewrite B in Hj. rewrite D by auto. cbn [lin_comb at2]. rewrite D1, D2 by auto. cbv zeta.
  unfold in_arrb. cbn [lin_comb nr nc at2]. rewrite <- Q1, <- Q2.
  destruct (_ && _); [reflexivity|]. ring.
Qed.
Lemma pad_crop_aeq (a b u v : arr C) sz f : wf a -> aeq a b -> pad_crop a sz f = Ok u -> pad_crop b sz f = Ok v -> aeq u v.
Proof.
  intros Hw (A & B & D) E1 E2. destruct (pad_crop_inv _ _ _ _ Hw E1) as (h & w0 & -> & Hh & Hw0 & _).
  assert (W2 : wf b) by (destruct Hw; split; lia).
  destruct (pad_crop_ok a h w0 f Hw Hh Hw0) as (x1 & X1 & A1 & B1 & D1).
  destruct (pad_crop_ok b h w0 f W2 Hh Hw0) as (x2 & X2 & A2 & B2 & D2).
  assert (x1 = u) by congruence. assert (x2 = v) by congruence. subst x1 x2.
  split; [lia|]. split; [lia|]. intros i j [Hi Hj]. rewrite D1, D2 by lia. cbv zeta.
  unfold in_arrb. rewrite <- A, <- B. destruct (_ && _) eqn:E; auto. apply D. apply in_arrb_spec. exact E.
Qed.
Lemma spectrum_lin a b e1 e2 k l : nr e1 = nr e2 -> nc e1 = nc e2 ->
  spectrum (lin_comb a b e1 e2) k l = (a * spectrum e1 k l + b * spectrum e2 k l)%C.
Proof.
  intros Q1 Q2. rewrite !spectrum_cdft. cbn [lin_comb nr nc at2]. rewrite cdft2_add, !cdft2_scal, Q1, Q2. reflexivity.
Qed.
Lemma fresnelprop_linear a b e1 e2 lam z nx ppm f1 f2 : wf e1 -> nr e1 = nr e2 -> nc e1 = nc e2 ->
  fresnelprop e1 lam z nx ppm = Ok f1 -> fresnelprop e2 lam z nx ppm = Ok f2 ->
  exists f, fresnelprop (lin_comb a b e1 e2) lam z nx ppm = Ok f /\ aeq f (lin_comb a b f1 f2).
Proof.
  intros Hw Q1 Q2 E1 E2. assert (W2 : wf e2) by (destruct Hw; split; lia).
  assert (W : wf (lin_comb a b e1 e2)) by (destruct Hw; split; cbn; lia).
  pose proof (fresnelprop_inv _ _ _ _ _ _ E1) as (H1 & H2 & H3 & H4).
  destruct (fresnelprop_defined (lin_comb a b e1 e2) lam z nx ppm) as (f & E & A & B); auto.
  { destruct H4 as [[-> _]|(_ & Q & _)]; [left; ring|]. right. cbn [lin_comb nr nc].
    eapply Rle_trans; [apply Zceil_ub|]. apply IZR_le. unfold n_samples_min in Q. lia. }
  exists f. split; auto. destruct (Req_EM_T z 0) as [Z0|Z0].
  - apply fresnelprop_inv in E, E1, E2.
    destruct E as (_ & _ & _ & [[_ ->]|(Z1 & _)]); [|contradiction].
    destruct E1 as (_ & _ & _ & [[_ ->]|(Z1 & _)]); [|contradiction].
    destruct E2 as (_ & _ & _ & [[_ ->]|(Z1 & _)]); [|contradiction]. apply aeq_refl.
  - destruct (fresnelprop_spec _ _ _ _ _ _ Hw E1 Z0) as (u1 & v1 & U1 & V1 & a1 & b1 & _ & S1).
    destruct (fresnelprop_spec _ _ _ _ _ _ W2 E2 Z0) as (u2 & v2 & U2 & V2 & a2 & b2 & _ & S2).
    destruct (fresnelprop_spec _ _ _ _ _ _ W E Z0) as (u & v & U & V & a3 & b3 & _ & S).
    destruct (pad_crop_ok e1 nx nx (RtoC 0) Hw H2 H2) as (x1 & X1 & c1 & d1 & _).
    destruct (pad_crop_ok e2 nx nx (RtoC 0) W2 H2 H2) as (x2 & X2 & c2 & d2 & _).
    assert (x1 = u1) by congruence. assert (x2 = u2) by congruence. subst x1 x2.
    destruct (pad_crop_lin a b e1 e2 u1 u2 nx nx Hw Q1 Q2 U1 U2) as (u' & U' & Lu).
    assert (u' = u) by congruence. subst u'.
    assert (Lv : aeq v (lin_comb a b v1 v2)).
    { apply spectrum_inj; [cbn; lia|cbn; lia|]. intros k l [Hk Hl]. rewrite spectrum_lin by lia.
      rewrite S, S1, S2 by lia. rewrite (aeq_spectrum _ _ k l Lu), spectrum_lin by lia. ring. }
    assert (Wv : wf v) by (split; lia). assert (Wv1 : wf v1) by (split; lia).
    rewrite <- Q1, <- Q2 in V2.
    destruct (pad_crop_lin a b v1 v2 f1 f2 (nr e1) (nc e1) Wv1) as (f' & F' & Lf); [lia|lia|exact V1|exact V2|].
    eapply aeq_trans; [|exact Lf]. eapply (pad_crop_aeq v); [exact Wv|exact Lv|exact V|exact F'].
Qed.
Lemma fft_defined (e : arr C) :
  (0 < nr e -> 0 < nc e -> exists f, do_fft e = Ok f /\ nr f = nr e /\ nc f = nc e) /\
  (0 < nr e -> 0 < nc e -> exists f, do_ifft e = Ok f /\ nr f = nr e /\ nc f = nc e) /\
  (~ (0 < nr e /\ 0 < nc e) -> do_fft e = Err ValueError /\ do_ifft e = Err ValueError).
Proof.
  split; [|split].
  - intros A B. destruct (do_fft_ok e A B) as (o & ? & ? & ? & _). eauto.
  - intros A B. destruct (do_ifft_ok e A B) as (o & ? & ? & ? & _). eauto.
  - apply fft_empty.
Qed.
Lemma fft_centre (e f : arr C) : do_fft e = Ok f ->
  at2 f (nr e / 2) (nc e / 2) = csum2 (at2 e) (nr e) (nc e).
Proof.
  intros E. assert (Hp : 0 < nr e /\ 0 < nc e).
  { destruct (Z.lt_decidable 0 (nr e)) as [Hn|Hn].
    - destruct (Z.lt_decidable 0 (nc e)) as [Hm|Hm]; [auto|]. destruct (fft_empty e); [tauto|congruence].
    - destruct (fft_empty e); [tauto|congruence]. }
  destruct Hp as [A B]. destruct (do_fft_ok e A B) as (o & E' & _ & _ & D).
  assert (o = f) by congruence. subst o. rewrite D. apply spectrum_centre; auto.
Qed.
Lemma fresnelprop_zero e lam nx ppm : (0 < lam)%R -> 0 < nx -> (0 < ppm)%R ->
  fresnelprop e lam 0 nx ppm = Ok e.
Proof.
  intros. unfold fresnelprop, guard. rewrite !pos_real_true by auto. cbn [bind].
  destruct (Z.ltb_spec 0 nx); [|lia]. cbn [bind]. destruct (Req_EM_T 0 0); [reflexivity|contradiction].
Qed.
Lemma fresnelprop_energy_grid e lam z nx ppm out : wf e -> nr e <= nx -> nc e <= nx ->
  fresnelprop e lam z nx ppm = Ok out -> z <> 0%R ->
  exists v, nr v = nx /\ nc v = nx /\ energy v = energy e /\ pad_crop v [nr e; nc e] (RtoC 0) = Ok out.
Proof.
  intros Hw L1 L2 E Hz. destruct (fresnelprop_spec _ _ _ _ _ _ Hw E Hz) as (u & v & U & V & A & B & En & _).
  exists v. split; auto. split; auto. split; auto. rewrite En. eapply pad_crop_energy_eq; eauto.
Qed.
