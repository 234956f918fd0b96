(** Proofs about the arguments refused by the numerical functions called directly. *)
From Coq Require Import ZArith Bool List String Reals Lra Lia.
From Flocq Require Import Core.Raux.
From Coquelicot Require Import Complex.
From Verif.Base Require Import Py Arr Vec Sums Fft.
From Verif.Model Require Import PadCrop Fresnel Mft Noll Dm Fits PsfFit Conjugate.
From Verif.Spec Require Import RefuseSpec RefuseLibSpec.
From Verif.Proofs Require Import PadCropP FresnelP MftP NollP DmP FitsP DarkHoleP RefuseP ConjugateP ConjugateCmdP.
Import ListNotations.
Open Scope string_scope.
Open Scope Z_scope.

Lemma bind_assoc {A B D} (m : res A) (k : A -> res B) (l : B -> res D) : bind (bind m k) l = bind m (fun x => bind (k x) l).
Proof. destruct m; auto. Qed.
Lemma shape2_ok lo l a b : shape2 lo l = Ok (a, b) <-> l = [a; b] /\ lo <= a /\ lo <= b.
Proof.
  unfold shape2. split.
  - destruct l as [|x [|y [|? ?]]]; try discriminate. unfold guard. destruct (Z.leb_spec lo x), (Z.leb_spec lo y); try discriminate.
    cbn [bind]. intros [= <- <-]. auto.
  - intros (-> & H1 & H2). rewrite !guard_true by (apply Z.leb_le; auto). auto.
Qed.
Lemma shape2_err lo l e : shape2 lo l = Err e -> ~ two_at_least lo l /\ e = TypeError.
Proof.
  intros H. split.
  - intros (a & b & Q). apply shape2_ok in Q. congruence.
  - unfold shape2, guard in H. destruct l as [|x [|y [|? ?]]]; try (injection H; auto). 
    destruct (lo <=? x), (lo <=? y); cbn [bind] in H; congruence.
Qed.
Lemma shape2_step {B} lo l (K : Z * Z -> res B) rest e :
  (forall a b, l = [a; b] -> lo <= a -> lo <= b -> (K (a, b) = Err e <-> refused rest e)) ->
  bind (shape2 lo l) K = Err e <-> refused ((two_at_least lo l, TypeError) :: rest) e.
Proof.
  intros H. apply step.
  - intros (a & b) E. apply shape2_ok in E. exists a, b. auto.
  - intros e' E. apply shape2_err in E. auto.
  - intros (a & b) E. apply shape2_ok in E as (? & ? & ?). auto.
Qed.
Lemma interval_step {B} n d (K : vec R * R -> res B) rest e : (0 < d)%R ->
  (0 < n -> (K (Vec n (fun k => IZR (- (n / 2) + k) * (IZR n / d / IZR n))%R, (IZR n / d / IZR n)%R) = Err e <-> refused rest e)) ->
  bind (interval (IZR n / d) n) K = Err e <-> refused ((0 < n, TypeError) :: rest) e.
Proof.
  intros Hd H. destruct (Z_lt_dec 0 n) as [P|P].
  - rewrite interval_ok by auto. cbn [bind]. rewrite (H P), refused_iff. tauto.
  - unfold interval. replace (pos_real (IZR n / d)) with false.
    + cbn [guard bind]. rewrite refused_iff. split; [intros [= <-]; auto|intros [[_ ->]|[Q _]]; [auto|contradiction]].
    + symmetry. apply not_true_iff_false. rewrite pos_real_iff. intros Q. apply P. apply lt_IZR.
      replace (IZR n) with (IZR n / d * d)%R by (field; lra). apply Rmult_lt_0_compat; auto.
Qed.

Lemma do_mft_refused a sh ppl ppp e : do_mft a sh ppl ppp = Err e <-> refused (mft_needs a sh ppl ppp) e.
Proof.
  unfold do_mft, mft_needs. cbn [map]. apply check_step; [apply pos_real_iff|]. intros H1.
  apply check_step; [apply pos_real_iff|]. intros H2. apply shape2_step. intros h w -> Hh Hw. cbn [fst snd].
  apply interval_step; auto. intros N1. apply interval_step; auto. intros N2.
  rewrite !interval_ok by (auto; lia). cbn [bind fst snd].
  edestruct mdot2 as (o & E & _); [| |rewrite E; rewrite refused_nil; split; [discriminate|tauto]]; reflexivity.
Qed.
Lemma do_imft_refused a sh ppl ppp e : do_imft a sh ppl ppp = Err e <-> refused (mft_needs a sh ppl ppp) e.
Proof.
  unfold do_imft, mft_needs. cbn [map]. apply check_step; [apply pos_real_iff|]. intros H1.
  apply check_step; [apply pos_real_iff|]. intros H2. apply shape2_step. intros h w -> Hh Hw. cbn [fst snd].
  apply interval_step; auto. intros N1. apply interval_step; auto. intros N2.
  rewrite !interval_ok by (auto; lia). cbn [bind fst snd].
  edestruct mdot2 as (o & E & _); [| |rewrite E; rewrite refused_nil; split; [discriminate|tauto]]; reflexivity.
Qed.
Lemma vslice_len n y0 h (x : vec R) : vlen x = n -> 0 < n -> 0 <= y0 -> 0 <= h ->
  vlen (get_vslice x (Slice y0 (y0 + h))) = h <-> h = 0 \/ y0 + h <= n.
Proof.
  intros <- H0 H1 H2. unfold get_vslice, slice_len, slice_lo, slice_bound. cbn [vlen vat s_start s_stop].
  destruct (Z.ltb_spec y0 0); [lia|]. destruct (Z.ltb_spec (y0 + h) 0); [lia|]. lia.
Qed.
Lemma do_offcenter_refused a sh ppl ppp ps ll e : wf a -> do_offcenter_mft a sh ppl ppp ps ll = Err e <-> refused (offcenter_needs a sh ppl ppp ps ll) e.
Proof.
  intros [W1 W2]. unfold do_offcenter_mft, offcenter_needs. cbn [map app]. apply check_step; [apply pos_real_iff|]. intros H1.
  apply check_step; [apply pos_real_iff|]. intros H2. apply shape2_step. intros h w -> Hh Hw.
  apply shape2_step. intros H W -> HH HW. apply shape2_step. intros y0 x0 -> Hy Hx. cbn [fst snd nth_error ends_inside].
  rewrite !interval_ok by (auto; lia). cbn [bind fst snd]. unfold mdot. cbn [exp_outer nr nc]. rewrite bind_assoc.
  apply check_step.
  { rewrite Z.eqb_eq. apply vslice_len; auto; lia. }
  intros _. cbn [bind nr nc]. rewrite bind_assoc. apply check_step.
  { rewrite Z.eqb_eq. rewrite <- (vslice_len W x0 (nc a) (Vec W (fun k => IZR (- (W / 2) + k) * (IZR W / ppp / IZR W))%R)) by (auto; lia). split; auto. }
  intros _. cbn [bind]. rewrite refused_nil. split; [discriminate|tauto].
Qed.
Lemma resample_refused sp k a b e : resample_inf_func sp k a b = Err e <-> refused (resample_needs k a b) e.
Proof.
  unfold resample_inf_func, resample_needs. apply check_step; [apply pos_real_iff|]. intros _.
  apply check_step; [apply pos_real_iff|]. intros _. rewrite refused_iff, refused_nil. destruct (Req_EM_T a b) as [<-|N].
  - split; [discriminate|tauto].
  - unfold guard. destruct (Z.leb_spec 4 (nr k)), (Z.leb_spec 4 (nc k)); cbn [andb bind].
    + split; [discriminate|]. intros [[Q _]|[_ []]]. exfalso. apply Q. right. auto.
    + split; [intros [= <-]; left; split; [intros [Q|Q]; [contradiction|lia]|auto]|intros [[_ ->]|[_ []]]; auto].
    + split; [intros [= <-]; left; split; [intros [Q|Q]; [contradiction|lia]|auto]|intros [[_ ->]|[_ []]]; auto].
    + split; [intros [= <-]; left; split; [intros [Q|Q]; [contradiction|lia]|auto]|intros [[_ ->]|[_ []]]; auto].
Qed.
Lemma prefilter_refused sp n m k a e : build_prefilter sp n m k a = Err e <-> refused (prefilter_needs n m k a) e.
Proof.
  unfold build_prefilter, prefilter_needs. cbn [app]. apply check_step; [apply Z.ltb_lt|]. intros _.
  apply check_step; [apply Z.ltb_lt|]. intros _. rewrite <- (resample_refused sp).
  unfold guard. destruct (pos_real a) eqn:E; cbn [bind].
  - destruct (resample_inf_func sp k a 1); cbn [bind]; split; congruence.
  - unfold resample_inf_func, guard. rewrite E. cbn [bind]. split; congruence.
Qed.
Lemma quadrant_refused a x y r e : quadrant_energy_balance a x y r = Err e <-> refused (quadrant_needs a x y r) e.
Proof.
  unfold quadrant_energy_balance, quadrant_needs. apply check_step; [apply Rleb_iff|]. intros _.
  apply check_step; [apply Z.leb_le|]. intros _. apply check_step; [apply Z.leb_le|]. intros _. cbv zeta.
  apply check_step; [apply Z.ltb_lt|]. intros _. apply check_step; [apply Z.ltb_lt|]. intros _.
  rewrite refused_nil. split; [discriminate|tauto].
Qed.
Lemma upsampled_refused a n f oy ox e : compute_upsampled_dft a n f oy ox = Err e <-> refused (upsampled_needs a f) e.
Proof.
  unfold compute_upsampled_dft, upsampled_needs. apply check_step; [destruct (Req_EM_T f 0); split; intros; try discriminate; auto; contradiction|]. intros _.
  apply check_step; [unfold nonempty; rewrite andb_true_iff, !Z.ltb_lt; tauto|]. intros _.
  rewrite refused_nil. split; [discriminate|tauto].
Qed.
Lemma fresnel_refused a lam z nx ppm e : wf a -> fresnelprop a lam z nx ppm = Err e <-> refused (fresnel_needs a lam z nx ppm) e.
Proof.
  intros W. unfold fresnel_needs. rewrite !refused_iff, refused_nil.
  destruct (Rlt_dec 0 lam) as [H1|H1].
  2: { unfold fresnelprop. replace (pos_real lam) with false by (unfold pos_real; destruct (Rlt_dec 0 lam); tauto). cbn [guard bind].
       split; [intros [= <-]; auto|]. intros [[_ ->]|[Q _]]; [auto|contradiction]. }
  destruct (Z_lt_dec 0 nx) as [H2|H2].
  2: { unfold fresnelprop. rewrite guard_true by (apply pos_real_iff; auto). replace (0 <? nx) with false by (symmetry; apply Z.ltb_ge; lia). cbn [guard bind].
       split; [intros [= <-]; tauto|]. intros [[Q _]|[_ [[_ ->]|[Q _]]]]; [contradiction|auto|contradiction]. }
  destruct (Rlt_dec 0 ppm) as [H3|H3].
  2: { unfold fresnelprop. rewrite guard_true by (apply pos_real_iff; auto). rewrite guard_true by (apply Z.ltb_lt; auto).
       replace (pos_real ppm) with false by (unfold pos_real; destruct (Rlt_dec 0 ppm); tauto). cbn [guard bind].
       split; [intros [= <-]; tauto|]. intros [[Q _]|[_ [[Q _]|[_ [[_ ->]|[Q _]]]]]]; [contradiction|contradiction|auto|contradiction]. }
  split.
  - intros E. apply fresnelprop_errors in E as [(_ & [Q|[Q|Q]])|(-> & Z0 & Q)]; auto; try (exfalso; lra || lia).
    right. split; auto. right. split; auto. right. split; auto. left. split; auto. intros [Q'|[Q1 Q2]]; [contradiction|].
    destruct (Z.min_spec (nr a) (nc a)) as [[_ M]|[_ M]]; rewrite M in Q; lra.
  - intros [[Q _]|[_ [[Q _]|[_ [[Q _]|[_ [[Q ->]|[_ []]]]]]]]]; try contradiction.
    destruct (fresnelprop a lam z nx ppm) as [o|x] eqn:E.
    + exfalso. apply Q. apply fresnelprop_inv in E as (_ & _ & _ & [[Z0 _]|(_ & M & _)]); [auto|]. right.
      unfold n_samples_min in M. pose proof (Zceil_ub (lam * Rabs z * ppm ^ 2)). 
      split; (eapply Rle_trans; [eassumption|]; apply IZR_le; lia).
    + f_equal. apply fresnelprop_errors in E as [(_ & [Q'|[Q'|Q']])|(-> & _)]; auto; exfalso; lra || lia.
Qed.
Lemma gen_zernikes_err inds cs xo yo d n e : (0 < d)%R -> forallb (fun o => 0 <? o) inds = true ->
  gen_zernikes inds cs xo yo d n = Err e -> e = ValueError.
Proof.
  intros Hd Hi. unfold gen_zernikes, guard. destruct (_ =? _); cbn [bind]; [|congruence].
  destruct (Rlt_dec 0 d); [|contradiction]. cbn [bind]. destruct (0 <? n); cbn [bind]; [|congruence].
  unfold xyzern, guard. destruct (Rlt_dec 0 (d / 2)) as [_|N]; [|exfalso; apply N; lra]. cbn [bind].
  unfold same_shape, grid_x, grid_y. cbn [nr nc]. rewrite !Z.eqb_refl. cbn [andb bind]. rewrite Hi. cbn [bind].
  destruct (negb _); cbn [bind]; congruence.
Qed.
Lemma zern_pad inds cs xo yo d N h w e : (0 < d)%R -> forallb (fun o => 0 <? o) inds = true -> 0 < h -> 0 < w ->
  (do z <- gen_zernikes inds cs xo yo d N; pad_crop z [h; w] 0%R) = Err e -> e = ValueError.
Proof.
  intros Hd Hi Hh Hw. destruct (gen_zernikes inds cs xo yo d N) as [z|x] eqn:E; cbn [bind].
  - intros P. exfalso. assert (W : wf z).
    { unfold gen_zernikes in E. apply guard_ok in E as (_ & E). apply guard_ok in E as (_ & E). apply guard_ok in E as (G & E).
      apply Z.ltb_lt in G. apply bind_ok in E as (cube & _ & E). injection E as <-.
      set (nA := if N =? 1000000 then auto_size d xo yo else N).
      assert (nr (weighted_sum nA cs cube) = nA /\ nc (weighted_sum nA cs cube) = nA) as [Q1 Q2].
      { unfold weighted_sum. generalize (List.combine cs cube). intros l. rewrite <- fold_left_rev_right. destruct (rev l); cbn; auto. }
      unfold wf. rewrite Q1, Q2. assert (0 <= nA); [|auto]. unfold nA. destruct (N =? 1000000); [|lia]. unfold auto_size.
      enough (0 <= Zceil (/ 2 * (d + 1 + Rmax (Rabs xo) (Rabs yo))))%Z by lia. apply le_IZR. eapply Rle_trans; [|apply Zceil_ub].
      pose proof (Rabs_pos xo). pose proof (Rmax_l (Rabs xo) (Rabs yo)). lra. }
    destruct (pad_crop_ok z h w 0%R W Hh Hw) as (o & E' & _). congruence.
  - intros [= <-]. eapply gen_zernikes_err; eauto.
Qed.
Lemma zern_bind {B} inds cs xo yo d N h w (K : arr R -> res B) e : (0 < d)%R -> forallb (fun o => 0 <? o) inds = true -> 0 < h -> 0 < w ->
  (forall o, K o = Err e -> e = ValueError) ->
  (do z <- gen_zernikes inds cs xo yo d N; do o <- pad_crop z [h; w] 0%R; K o) = Err e -> e = ValueError.
Proof.
  intros Hd Hi Hh Hw HK H. rewrite <- bind_assoc in H. destruct (do z <- gen_zernikes inds cs xo yo d N; pad_crop z [h; w] 0%R) as [o|x] eqn:E; cbn [bind] in H.
  - eauto.
  - injection H as <-. eapply zern_pad; [| | | |exact E]; auto.
Qed.
Lemma arange_pos lo hi : 0 < lo -> forallb (fun o => 0 <? o) (arange lo hi) = true.
Proof.
  intros H. apply forallb_forall. intros x I. unfold arange in I. apply in_map_iff in I as (k & <- & K). apply in_zrange in K. apply Z.ltb_lt. lia.
Qed.
Lemma split_refused (fcm : bool) maxNoll cs d h w xo yo e : 0 < h -> 0 < w -> Z.max h w <> 1000000 ->
  gen_split_wfe fcm maxNoll cs d h w xo yo = Err e <-> refused (split_needs fcm maxNoll d) e.
Proof.
  intros Hh Hw HM. unfold split_needs. rewrite !refused_iff, refused_nil.
  destruct (Z_lt_dec 0 maxNoll) as [H1|H1].
  2: { unfold gen_split_wfe. replace (0 <? maxNoll) with false by (symmetry; apply Z.ltb_ge; lia). cbn [guard bind].
       split; [intros [= <-]; auto|]. intros [[_ ->]|[Q _]]; [auto|contradiction]. }
  destruct (Rlt_dec 0 d) as [H2|H2].
  2: { unfold gen_split_wfe. rewrite guard_true by (apply Z.ltb_lt; auto). replace (pos_real d) with false by (unfold pos_real; destruct (Rlt_dec 0 d); tauto). cbn [guard bind].
       split; [intros [= <-]; tauto|]. intros [[Q _]|[_ [[_ ->]|[Q _]]]]; [contradiction|auto|contradiction]. }
  destruct (Z_lt_dec maxNoll 4) as [H3|H3]; [destruct fcm|].
  - rewrite split_fcm_small by (auto; lia). split.
    + intros [= <-]. right. split; auto. right. split; auto. left. split; auto. intros Q. specialize (Q eq_refl). lia.
    + intros [[Q _]|[_ [[Q _]|[_ [[_ ->]|[Q _]]]]]]; try contradiction; auto. specialize (Q eq_refl). lia.
  - assert (E : forall x, gen_split_wfe false maxNoll cs d h w xo yo = Err x -> x = ValueError).
    { intros x. unfold gen_split_wfe. rewrite guard_true by (apply Z.ltb_lt; auto). rewrite guard_true by (apply pos_real_iff; auto). cbv zeta.
      rewrite guard_true by (rewrite andb_true_iff, !Z.leb_le; lia). cbn [bind].
      apply zern_bind; auto. intros o. apply zern_bind; auto; [apply arange_pos; lia|discriminate]. }
    split.
    + intros G. rewrite (E _ G). right. split; auto. right. split; auto. right. split; [discriminate|]. left. split; [lia|auto].
    + intros [[Q _]|[_ [[Q _]|[_ [[Q _]|[_ [[_ ->]|[Q _]]]]]]]]; try contradiction; try lia.
      destruct (gen_split_wfe false maxNoll cs d h w xo yo) as [o|x] eqn:G; [|rewrite (E _ eq_refl); auto].
      exfalso. assert (I : is_ok (gen_split_wfe false maxNoll cs d h w xo yo)) by (exists o; auto). apply split_defined in I; auto. lia.
  - destruct (Z_lt_dec maxNoll (if fcm then 5 else 4)) as [H4|H4].
    + destruct fcm; [|lia]. assert (maxNoll = 4) by lia. subst maxNoll.
      assert (E : forall x, gen_split_wfe true 4 cs d h w xo yo = Err x -> x = ValueError).
      { intros x. unfold gen_split_wfe. rewrite guard_true by reflexivity. rewrite guard_true by (apply pos_real_iff; auto). cbv zeta.
        destruct (nth_error (resize_coef 4 cs) 3) as [c|] eqn:N3; [|exfalso; apply nth_error_None in N3; rewrite resize_len in N3 by lia; lia].
        rewrite bind_assoc. apply zern_bind; auto. intros o. apply zern_bind; auto. intros o'. apply zern_bind; auto. discriminate. }
      split.
      * intros G. rewrite (E _ G). right. split; auto. right. split; auto. right. split; [lia|]. left. split; [lia|auto].
      * intros [[Q _]|[_ [[Q _]|[_ [[Q _]|[_ [[_ ->]|[Q _]]]]]]]]; try contradiction; try lia.
        destruct (gen_split_wfe true 4 cs d h w xo yo) as [o|x] eqn:G; [|rewrite (E _ eq_refl); auto].
        exfalso. assert (I : is_ok (gen_split_wfe true 4 cs d h w xo yo)) by (exists o; auto). apply split_defined in I; auto. lia.
    + assert (I : is_ok (gen_split_wfe fcm maxNoll cs d h w xo yo)) by (apply split_defined; auto; repeat split; auto; lia).
      destruct I as [o E]. rewrite E. split; [discriminate|].
      intros [[Q _]|[_ [[Q _]|[_ [[Q _]|[_ [[Q _]|[_ []]]]]]]]]; try contradiction; exfalso; lia.
Qed.
Lemma positive_iff l : forallb (fun o => 0 <? o) l = true <-> all_positive l.
Proof. rewrite forallb_forall. unfold all_positive. split; intros H o I; apply Z.ltb_lt; auto. Qed.
Lemma length_zero {A} (l : list A) : negb (Z.of_nat (List.length l) =? 0) = true <-> l <> [].
Proof. destruct l; cbn; split; try discriminate; auto. Qed.
Lemma Rlt_dec_iff a b : (if Rlt_dec a b then true else false) = true <-> (a < b)%R.
Proof. destruct (Rlt_dec a b); split; try discriminate; auto; contradiction. Qed.
Lemma same_iff {A B} (a : arr A) (b : arr B) : same_shape a b = true <-> nr a = nr b /\ nc a = nc b.
Proof. unfold same_shape. rewrite andb_true_iff, !Z.eqb_eq. tauto. Qed.
Lemma xyzern_refused x y p l e : xyzern x y p l = Err e <-> refused (xyzern_needs x y p l) e.
Proof.
  unfold xyzern, xyzern_needs. apply check_step; [apply Rlt_dec_iff|]. intros _. apply check_step; [apply same_iff|]. intros _.
  apply check_step; [apply positive_iff|]. intros _. apply check_step; [apply length_zero|]. intros _.
  rewrite refused_nil. split; [discriminate|tauto].
Qed.
Lemma zernikes_refused inds cs xo yo d n e : gen_zernikes inds cs xo yo d n = Err e <-> refused (zernikes_needs inds cs d n) e.
Proof.
  unfold gen_zernikes, zernikes_needs. apply check_step; [rewrite Z.eqb_eq; lia|]. intros _. apply check_step; [apply Rlt_dec_iff|]. intros Hd.
  apply check_step; [apply Z.ltb_lt|]. intros _. unfold xyzern. rewrite !bind_assoc.
  rewrite guard_true by (apply Rlt_dec_iff; lra). try rewrite bind_assoc. rewrite guard_true by (apply same_iff; auto). try rewrite bind_assoc.
  apply check_step; [apply positive_iff|]. intros _. try rewrite bind_assoc. apply check_step; [apply length_zero|]. intros _.
  cbn [bind]. rewrite refused_nil. split; [discriminate|tauto].
Qed.
Lemma cost_refused al z a u e : phase_cost_function al z a u = Err e <-> refused (cost_needs al z a u) e.
Proof.
  unfold phase_cost_function, cost_needs. cbn [map]. apply check_step.
  { rewrite negb_true_iff, orb_false_iff. unfold Rltb. destruct (Rlt_dec al 0), (Rlt_dec 1 al); split; intros; try lra; try (destruct H; discriminate); auto; split; lra. }
  intros _. apply check_step; [apply same_iff|]. intros _. apply check_step; [apply same_iff|]. intros _.
  rewrite refused_nil. split; [discriminate|tauto].
Qed.
Lemma conv_refused ops s dm e : (forall a t, nr (co_rotate ops a t) = nr a /\ nc (co_rotate ops a t) = nc a) ->
  conv_surf_to_dm_cmd ops s dm = Err e <->
  refused (conv_needs (nr s) (nc s) (c_pitch dm) (c_ppact_cx dm) (c_ppact_cy dm) (c_nact dm) (c_ppact_d dm) (c_inf dm)) e.
Proof.
  intros HR. unfold conv_surf_to_dm_cmd, conv_needs. cbn [map app].
  apply check_step; [apply pos_real_iff|]. intros Hp. apply check_step; [apply pos_real_iff|]. intros Hx.
  apply check_step; [apply pos_real_iff|]. intros Hy. apply check_step; [apply Z.ltb_lt|]. intros Hn.
  apply check_step; [apply pos_real_iff|]. intros Hd. apply check_step; [apply Z.eqb_eq|]. intros Hs. cbv zeta.
  set (s1 := if c_flipx dm then fliplr s else s). destruct (HR s1 (c_thact dm)) as [R1 R2].
  assert (nr s1 = nr s /\ nc s1 = nc s) as [S1 S2] by (unfold s1; destruct (c_flipx dm); auto).
  apply check_step; [rewrite andb_true_iff, !Z.leb_le, R1, R2, S1, S2; tauto|]. intros _. cbn [nr nc].
  replace (c_pitch dm / (c_pitch dm / c_ppact_d dm))%R with (c_ppact_d dm) by (field; lra).
  match goal with |- bind (build_prefilter ?sp ?a ?b ?k ?p) _ = _ <-> _ => destruct (build_prefilter sp a b k p) as [m|x] eqn:E end; cbn [bind].
  - assert (Q : c_ppact_d dm = 1%R \/ 4 <= nr (c_inf dm)).
    { destruct (Req_EM_T (c_ppact_d dm) 1) as [Q|Q]; [auto|]. right. destruct (Z_lt_dec (nr (c_inf dm)) 4) as [L|L]; [|lia]. exfalso.
      assert (G : build_prefilter (co_spline2 ops) (c_nact dm) (c_nact dm) (c_inf dm) (c_ppact_d dm) = Err (Custom "fitpack")); [|congruence].
      apply prefilter_refused. unfold prefilter_needs, resample_needs. cbn [app]. do 4 (apply refused_later; [auto; lra|]). apply refused_here. intros [P|P]; [contradiction|lia]. }
    assert (S : sdim m = c_nact dm * c_nact dm).
    { unfold build_prefilter in E. apply guard_ok in E as (_ & E). apply guard_ok in E as (_ & E). apply guard_ok in E as (_ & E). apply bind_ok in E as (k & _ & E). injection E as <-. auto. }
    unfold fit_surf_to_dm. rewrite guard_true by (apply Z.eqb_eq; exact S). rewrite refused_iff, refused_nil. split; [discriminate|tauto].
  - apply prefilter_refused in E. unfold prefilter_needs, resample_needs in E. cbn [app] in E. rewrite !refused_iff, refused_nil in *.
    split.
    + intros [= <-]. left. destruct E as [[Q _]|[_ [[Q _]|[_ [[Q _]|[_ [[Q _]|[_ [[Q ->]|[_ []]]]]]]]]]]; try contradiction; try lra.
      split; auto. intros [P|P]; apply Q; [auto|right; lia].
    + intros [[Q ->]|[_ []]]. destruct E as [[Q' _]|[_ [[Q' _]|[_ [[Q' _]|[_ [[Q' _]|[_ [[Q' ->]|[_ []]]]]]]]]]]; try contradiction; try lra. auto.
Qed.
