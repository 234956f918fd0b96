(** Proofs about refused inputs of the mask shapes, of propagation with a given phase factor and of the fits. *)
From Coq Require Import ZArith Bool List String Reals Lra Lia.
From Flocq Require Import Core.
From Coquelicot Require Import Complex.
From Verif.Base Require Import Py Arr Vec Lstsq.
From Verif.Model Require Import Fits Noll PadCrop Shapes RectProper Fresnel.
From Verif.Spec Require Import RefuseSpec RefuseDmSpec RefuseShapesSpec.
From Verif.Proofs Require Import FitsP PadCropP FresnelP RefuseP RectProperQ.
Import ListNotations.
Open Scope Z_scope.

Local Ltac posZ := apply check_step; [apply Z.ltb_lt|]; intros ?.
Local Ltac posR := apply check_step; [apply FitsP.Rltb_iff|]; intros ?.
Local Ltac nonnegR := apply check_step; [apply FitsP.Rleb_iff|]; intros ?.
Lemma pitch_step {B} nx xo (k : R -> res B) rest e : (forall dx, 1 < nx -> (k dx = Err e <-> refused rest e)) ->
  (bind (pixel_dx nx xo) k = Err e <-> refused ((1 < nx, IndexError) :: rest) e).
Proof.
  intros H. unfold pixel_dx. destruct (Z.ltb_spec 1 nx) as [L|L]; cbn [guard bind]; rewrite refused_iff.
  - rewrite (H _ L). tauto.
  - split; [intros [= <-]; left; split; [lia|auto]|]. intros [[_ ->]|[Q _]]; [auto|lia].
Qed.
Ltac done_ := rewrite refused_nil; split; [discriminate|tauto].
Lemma circle_refused nx ny r xo yo ns d e : circle nx ny r xo yo ns d = Err e <-> refused (circle_needs nx ny r ns) e.
Proof. unfold circle, circle_needs, each. cbn [map app]. posZ. posZ. posR. posZ. apply pitch_step. intros dx L. done_. Qed.
Lemma ellipse_refused nx ny rx ry rot xo yo ns d e : ellipse nx ny rx ry rot xo yo ns d = Err e <-> refused (ellipse_needs nx ny rx ry ns) e.
Proof. unfold ellipse, ellipse_needs, two_lengths, each. cbn [map app]. posZ. posZ. posR. posR. posZ. cbv zeta. apply pitch_step. intros dx L. posZ. done_. Qed.
Lemma rectangle_refused nx ny w h xo yo rot ns d e : rectangle nx ny w h xo yo rot ns d = Err e <-> refused (rectangle_needs nx ny w h ns) e.
Proof. unfold rectangle, rectangle_needs, two_lengths, each. cbn [map app]. posZ. posZ. posR. posR. posZ. apply pitch_step. intros dx L. done_. Qed.
Lemma segments_refused nSeg rIn rOut nx ny xo yo angOpen angRot ns dTheta e :
  annular_segments nSeg rIn rOut nx ny xo yo angOpen angRot ns dTheta = Err e <-> refused (segments_needs nSeg rIn rOut nx ny angOpen angRot ns dTheta) e.
Proof.
  unfold annular_segments, segments_needs, each. cbn [map app]. apply check_step; [rewrite orb_true_iff, !Z.eqb_eq; tauto|]. intros _.
  posR. posR. posZ. posZ. nonnegR. posZ. nonnegR. cbv zeta. apply pitch_step. intros dx L. posR. done_.
Qed.
Lemma rect_proper_refused nx ny w h xo yo rot ns d e : rect_proper nx ny w h xo yo rot ns d = Err e <-> refused (two_lengths nx ny w h ns) e.
Proof.
  unfold two_lengths, each. cbn [map].
  destruct (Z_lt_dec 0 nx) as [H1|H1]; [destruct (Z_lt_dec 0 ny) as [H2|H2]; [destruct (Rlt_dec 0 w) as [H3|H3]; [destruct (Rlt_dec 0 h) as [H4|H4]; [destruct (Z_lt_dec 0 ns) as [H5|H5]|]|]|]|].
  1: { destruct (rect_proper_ok nx ny w h xo yo rot ns d H1 H2 H3 H4 H5) as (out & seg & E & _). rewrite E. rewrite !refused_iff, refused_nil. split; [discriminate|tauto]. }
  all: unfold rect_proper; cbv zeta.
  all: repeat (apply check_step; [apply Z.ltb_lt || apply FitsP.Rltb_iff|]; intros ?; try contradiction).
Qed.
Lemma circle_def nx ny r xo yo ns d : 1 < nx -> 0 < ny -> (0 < r)%R -> 0 < ns -> exists out, circle nx ny r xo yo ns d = Ok out.
Proof.
  intros H1 H2 H3 H4. destruct (circle nx ny r xo yo ns d) as [o|e] eqn:E; [eauto|]. apply circle_refused in E. unfold circle_needs, each in E. cbn [map app] in E.
  rewrite !refused_iff, refused_nil in E. exfalso. assert (0 < nx) by lia. tauto.
Qed.
Lemma rectangle_def nx ny w h xo yo rot ns d : 1 < nx -> 0 < ny -> (0 < w)%R -> (0 < h)%R -> 0 < ns -> exists out, rectangle nx ny w h xo yo rot ns d = Ok out.
Proof.
  intros H1 H2 H3 H4 H5. destruct (rectangle nx ny w h xo yo rot ns d) as [o|e] eqn:E; [eauto|]. apply rectangle_refused in E. unfold rectangle_needs, two_lengths, each in E. cbn [map app] in E.
  rewrite !refused_iff, refused_nil in E. exfalso. assert (0 < nx) by lia. tauto.
Qed.
Lemma struts_def nx ny xo yo dO width ns angs : 1 < nx -> 0 < ny -> (0 < dO)%R -> (0 < width)%R -> 0 < ns ->
  forall p, exists out, struts nx ny xo yo dO width ns angs p = Ok out.
Proof.
  intros H1 H2 H3 H4 H5. induction angs as [|t l IH]; intros p; cbn [struts]; [eauto|].
  unfold strut. cbv zeta. match goal with |- context [rectangle nx ny ?w ?h ?x ?y ?r ns ?d] => destruct (rectangle_def nx ny w h x y r ns d H1 H2) as (s & E); [lra|auto|auto|] end.
  rewrite E. cbn [bind]. apply IH.
Qed.
Lemma simple_pupil_refused nx ny xo yo dI dO angs width ns e : simple_pupil nx ny xo yo dI dO angs width ns = Err e <-> refused (pupil_needs nx ny dI dO width ns) e.
Proof.
  unfold simple_pupil, pupil_needs, each. cbn [map app]. posZ. posZ. nonnegR. posR. nonnegR. posZ. posR.
  rewrite refused_iff, refused_nil. destruct (Z_lt_dec 1 nx) as [L|L].
  - assert (Ro : (0 < dO / 2)%R) by lra. destruct (circle_def nx ny (dO / 2) xo yo ns false L) as (c & ->); auto. cbn [bind].
    assert (G : exists p, (if Rltb 0 dI then bind (circle nx ny (dI / 2) xo yo ns true) (fun c0 => Ok (amap2 Rmult c c0)) else Ok c) = Ok p).
    { destruct (Rltb 0 dI) eqn:E; [|eauto]. apply FitsP.Rltb_iff in E. assert (Ri : (0 < dI / 2)%R) by lra. destruct (circle_def nx ny (dI / 2) xo yo ns true L) as (c' & ->); auto. cbn [bind]. eauto. }
    destruct G as (p & ->). cbn [bind].
    match goal with |- (?b = _) <-> _ => assert (G : exists o, b = Ok o) end.
    { destruct (match angs with [] => false | _ => true end); cbn [andb]; [|eauto]. destruct (Rltb 0 width) eqn:E; [|eauto]. apply FitsP.Rltb_iff in E. apply struts_def; auto. }
    destruct G as (o & ->). split; [discriminate|tauto].
  - assert (E : circle nx ny (dO / 2) xo yo ns false = Err IndexError).
    { apply circle_refused. unfold circle_needs, each. cbn [map app]. assert (0 < dO / 2)%R by lra. rewrite !refused_iff. tauto. }
    rewrite E. cbn [bind]. split; [intros [= <-]; auto|]. intros [[_ ->]|[Q _]]; [auto|contradiction].
Qed.
Lemma bc_ok_iff t s : bc_ok t s = true <-> s = t \/ s = 1.
Proof. unfold bc_ok. rewrite orb_true_iff, !Z.eqb_eq. tauto. Qed.
Lemma fresnel_fp_refused a z nx fp e : wf a -> fresnelprop_fp a z nx fp = Err e <-> refused (fresnel_fp_needs a z nx fp) e.
Proof.
  intros W. unfold fresnelprop_fp, fresnel_fp_needs. cbn [map fst snd]. posZ.
  destruct (Req_EM_T z 0) as [Z0|Z0].
  { rewrite !refused_iff, refused_nil. split; [discriminate|tauto]. }
  unfold propagate. destruct (pad_crop_ok a nx nx (RtoC 0) W H H) as (u & -> & N1 & N2 & _). cbn [bind].
  destruct (do_fft_ok u) as (f & -> & F1 & F2 & _); [lia|lia|]. cbn [bind]. unfold imul. rewrite F1, F2, N1, N2.
  rewrite refused_iff. destruct (bc_ok nx (nr fp) && bc_ok nx (nc fp)) eqn:E; cbn [guard bind].
  2: { split; [intros [= <-]; left; split; [|auto]; intros [Q|[Q1 Q2]]; [contradiction|]|].
       - apply bc_ok_iff in Q1. apply bc_ok_iff in Q2. rewrite Q1, Q2 in E. discriminate.
       - intros [[_ ->]|[[Q|[Q1 Q2]] _]]; [auto|contradiction|]. apply bc_ok_iff in Q1. apply bc_ok_iff in Q2. rewrite Q1, Q2 in E. discriminate. }
  apply andb_true_iff in E as [E1 E2]. apply bc_ok_iff in E1. apply bc_ok_iff in E2.
  match goal with |- context [do_ifft ?q] => destruct (do_ifft_ok q) as (v & -> & V1 & V2 & _); [cbn; lia|cbn; lia|] end. cbn [bind]. cbn [nr nc] in V1, V2.
  assert (Wv : wf v) by (split; lia). rewrite !refused_iff, refused_nil.
  destruct (Z_lt_dec 0 (nr a)) as [A1|A1]; [destruct (Z_lt_dec 0 (nc a)) as [A2|A2]|].
  - destruct (pad_crop_ok v (nr a) (nc a) (RtoC 0) Wv A1 A2) as (o & -> & _). split; [discriminate|tauto].
  - unfold pad_crop. rewrite (proj2 (Z.ltb_lt 0 (nr a)) A1), (proj2 (Z.ltb_ge 0 (nc a))) by lia. cbn [guard bind]. split; [intros [= <-]; tauto|].
    intros HH. destruct HH as [[Q ->]|[_ HH]]; [tauto|]. destruct HH as [[Q ->]|[_ HH]]; [tauto|]. destruct HH as [[Q ->]|[_ HH]]; [auto|destruct HH].
  - unfold pad_crop. rewrite (proj2 (Z.ltb_ge 0 (nr a))) by lia. cbn [guard bind]. split; [intros [= <-]; tauto|].
    intros HH. destruct HH as [[Q ->]|[_ HH]]; [tauto|]. destruct HH as [[Q ->]|[[Q|Q] HH]]; [auto|contradiction|contradiction].
Qed.
Lemma NoDup_app_ (l m : list (Z * Z)) : NoDup l -> NoDup m -> (forall y, In y l -> ~ In y m) -> NoDup (l ++ m).
Proof.
  induction 1 as [|y l Hy Nl IHl]; cbn; auto. intros Nm Dj. apply NoDup_cons.
  - rewrite in_app_iff. intros [G|G]; [tauto|]. apply (Dj y); auto.
  - apply IHl; auto.
Qed.
Lemma NoDup_nonzero_points m : NoDup (nonzero_points m).
Proof.
  unfold nonzero_points. apply NoDup_filter. unfold indices, zrange.
  assert (NZ : forall k, NoDup (map Z.of_nat (seq 0 k))) by (intros k; apply FinFun.Injective_map_NoDup; [intros x y; apply Nat2Z.inj|apply seq_NoDup]).
  pose proof (NZ (Z.to_nat (nr m))) as N1. pose proof (NZ (Z.to_nat (nc m))) as N2. revert N1 N2.
  generalize (map Z.of_nat (seq 0 (Z.to_nat (nr m)))) as l1. generalize (map Z.of_nat (seq 0 (Z.to_nat (nc m)))) as l2.
  intros l2 l1 N1 N2. induction N1 as [|x l Hx N1 IH]; cbn; [constructor|]. apply NoDup_app_; auto.
  - apply FinFun.Injective_map_NoDup; auto. intros y z Eyz. congruence.
  - intros y Iy Iz. apply in_map_iff in Iy as (z & <- & _). apply in_prod_iff in Iz. tauto.
Qed.
Lemma nonzero_unique m l l' : nonzero_pixels m l -> nonzero_pixels m l' -> List.length l = List.length l'.
Proof.
  intros [N1 H1] [N2 H2]. apply Nat.le_antisymm; apply NoDup_incl_length; auto; intros [i j] Hi; [apply H2, H1|apply H1, H2]; auto.
Qed.
Lemma nonzero_here m : nonzero_pixels m (nonzero_points m).
Proof. split; [apply NoDup_nonzero_points|]. intros i j. apply in_nzp. Qed.
Lemma reshape_iff m t : reshape_ok (npoints m) t = true <-> counts_as m t.
Proof.
  unfold reshape_ok, counts_as, npoints. rewrite orb_true_iff, !Z.eqb_eq. split.
  - intros [->| ->]; [right; exists (nonzero_points m); split; [apply nonzero_here|auto]|auto].
  - intros [->|(l & N & ->)]; [auto|]. left. f_equal. apply (nonzero_unique m); auto. apply nonzero_here.
Qed.
Lemma same_iff {A B} (a : arr A) (b : arr B) : same_shape a b = true <-> same_size a b.
Proof. unfold same_shape, same_size. rewrite andb_true_iff, !Z.eqb_eq. tauto. Qed.
Lemma ptt_refused lstsq a m e : remove_piston_tip_tilt lstsq a m = Err e <-> refused (flatten_needs a m (Ztrunc (fold_right Rplus 0%R (elements m)))) e.
Proof.
  unfold remove_piston_tip_tilt, flatten_needs, each. cbn [map]. apply check_step; [apply same_iff|]. intros _. cbv zeta. apply check_step; [apply reshape_iff|]. intros _. done_.
Qed.
Lemma opt2_refused lstsq xs ys a m e :
  let needs := optimum_needs xs ys a m (fold_right Z.add 0 (map Ztrunc (elements m))) in
  (refused needs e -> find_optimum_2d lstsq xs ys a m = Err e) /\
  (find_optimum_2d lstsq xs ys a m = Err e -> refused needs e \/ (met needs /\ e = Custom "QuadraticException")).
Proof.
  cbv zeta. unfold optimum_needs, each. cbn [map]. unfold find_optimum_2d. cbv zeta. rewrite !refused_iff, refused_nil. unfold met.
  destruct (same_shape a m) eqn:E1; cbn [guard bind].
  2: { assert (~ same_size a m) by (rewrite <- same_iff, E1; discriminate). split; [intros [[_ ->]|[Q _]]; [auto|contradiction]|intros [= <-]; auto]. }
  apply same_iff in E1. destruct (Z.eqb_spec (nr a) (vlen ys)) as [E2|E2]; cbn [guard bind].
  2: { split; [intros [[Q _]|[_ [[_ ->]|[Q _]]]]; [contradiction|auto|contradiction]|intros [= <-]; tauto]. }
  destruct (Z.eqb_spec (nc a) (vlen xs)) as [E3|E3]; cbn [guard bind].
  2: { split; [intros [[Q _]|[_ [[Q _]|[_ [[_ ->]|[Q _]]]]]]; [contradiction|contradiction|auto|contradiction]|intros [= <-]; tauto]. }
  destruct (reshape_ok (npoints m) _) eqn:E4; cbn [guard bind].
  2: { match type of E4 with reshape_ok _ ?t = _ => assert (N : ~ counts_as m t) by (rewrite <- reshape_iff, E4; discriminate) end.
       split; [intros [[Q _]|[_ [[Q _]|[_ [[Q _]|[_ [[_ ->]|[Q _]]]]]]]]; try contradiction; auto|intros [= <-]; tauto]. }
  apply reshape_iff in E4. split; [tauto|]. match goal with |- context [guard ?b _] => destruct b; cbn [guard bind]; [discriminate|] end.
  intros [= <-]. right. split; [|auto]. do 4 (apply Forall_cons; [assumption|]). apply Forall_nil.
Qed.
Lemma fit_zernikes_refused lstsq w u n b dx dy e : fit_zernikes lstsq w u n b dx dy = Err e <-> refused (fit_zernikes_needs w u n b) e.
Proof.
  unfold fit_zernikes, fit_zernikes_needs, each. cbn [map app]. apply check_step; [apply same_iff|]. intros _. posZ.
  apply check_step; [destruct (Rlt_dec 0 b); split; intros; auto; try discriminate; contradiction|]. intros _. done_.
Qed.
From Verif.Model Require Import Dm.
From Verif.Spec Require Import DmSpec.
From Verif.Proofs Require Import DmP.
Lemma dmhtoph_only ops nrow ncol d nact inf ppd cx cy dx dy th fx out : wf inf -> dmhtoph ops nrow ncol d nact inf ppd cx cy dx dy th fx = Ok out ->
  dm_args nrow ncol d nact inf ppd cx cy /\ 4 <= (nact - 1) * ppd + nr inf.
Proof.
  intros [W _] H. unfold dmhtoph in H. do 11 (apply guard_ok in H as [? H]).
  assert (A : dm_args nrow ncol d nact inf ppd cx cy).
  { rewrite ?Z.ltb_lt, ?pos_real_iff, ?andb_true_iff, ?Z.ltb_lt, ?Z.eqb_eq in *.
    destruct (Rlt_dec (IZR ppd) cx); [discriminate|]. destruct (Rlt_dec (IZR ppd) cy); [discriminate|]. unfold dm_args. repeat split; try tauto; try lra. }
  split; [exact A|]. destruct A as (_ & _ & A3 & A4 & _ & _ & A7 & A8 & _). destruct (poke_ok nact ppd d) as (a & E & N1 & N2 & _); auto. rewrite E in H. cbn [bind] in H.
  apply guard_ok in H as [G _]. apply Z.leb_le in G. cbn [convolve_full nr] in G. rewrite N1 in G. lia.
Qed.
