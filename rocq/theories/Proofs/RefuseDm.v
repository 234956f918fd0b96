(** Proofs about refused inputs of the DM shape, crop and one-dimensional fit functions. *)
From Coq Require Import ZArith Bool List String Reals Lra Lia.
From Flocq Require Import Core.
From Verif.Base Require Import Py Arr Vec Lstsq.
From Verif.Model Require Import Dm Fits Noll PadCrop Conjugate.
From Verif.Spec Require Import RefuseSpec RefuseDmSpec.
From Verif.Proofs Require Import PadCropP DmP RefuseP RefuseLib ConjugateP.
Import ListNotations.
Open Scope Z_scope.

Lemma not_le_iff x y : (if Rle_dec x y then false else true) = true <-> (y < x)%R.
Proof. destruct (Rle_dec x y); split; intros; try congruence; lra. Qed.
Lemma not_leb_iff x y : negb (x <=? y) = true <-> y < x.
Proof. rewrite negb_true_iff, Z.leb_gt. reflexivity. Qed.
Lemma not_ltb_iff x y : negb (x <? y) = true <-> y <= x.
Proof. rewrite negb_true_iff, Z.ltb_ge. reflexivity. Qed.
Ltac one := first [apply Z.ltb_lt|apply Z.leb_le|apply pos_real_iff|apply not_le_iff|apply not_leb_iff|apply not_ltb_iff|apply same_iff].
Ltac steps := cbn [map app each]; repeat (apply check_step; [one|intro]); try (rewrite refused_nil; split; [discriminate|tauto]).

Lemma probe_refused nact dact xc yc cl h x0 x1 e0 e1 ph e :
  probe nact dact xc yc cl h x0 x1 e0 e1 ph = Err e <-> refused (probe_needs nact dact h x0 x1 e0 e1) e.
Proof. unfold probe, probe_needs, each. steps. Qed.
Lemma sine_refused nact dact am ph fx fy e : sine nact dact am ph fx fy = Err e <-> refused (sine_needs nact dact am) e.
Proof. unfold sine, sine_needs, each. steps. Qed.
Lemma grid_refused nact xs ys xo yo poke e : grid nact xs ys xo yo poke = Err e <-> refused (grid_needs nact xs ys xo yo) e.
Proof. unfold grid, grid_needs, each. steps. Qed.
Lemma dm_zernike_refused nact dact size j e : dm_zernike nact dact size j = Err e <-> refused (zernike_needs nact dact j) e.
Proof.
  pose proof (dm_zernike_ok nact dact size j) as K. revert K. unfold dm_zernike at 2. unfold zernike_needs, each. cbn [map]. intros K.
  unfold dm_zernike in K. apply check_step; [one|intros H1]. apply check_step; [one|intros H2]. apply check_step; [rewrite Z.ltb_lt; lia|intros H3].
  destruct (K H1 H2 H3) as (d & E & _). rewrite guard_true in E by (apply Z.ltb_lt; auto).
  rewrite guard_true in E by (apply pos_real_iff; auto). rewrite guard_true in E by (apply Z.ltb_lt; lia).
  cbv zeta in E |- *. rewrite refused_nil. split; [|tauto]. intros X. pose proof (eq_trans (eq_sym E) X). discriminate.
Qed.
Lemma to_volts_refused g h lam e : dmh_to_volts g h lam = Err e <-> refused (volts_needs g h lam) e.
Proof. unfold dmh_to_volts, volts_needs, each. steps. Qed.
Lemma from_volts_refused g v lam e : volts_to_dmh g v lam = Err e <-> refused (volts_needs g v lam) e.
Proof. unfold volts_to_dmh, volts_needs, each. steps. Qed.
Lemma crop_refused {A} (frame : arr (fnan A)) lr lc rw cw e : crop frame lr lc rw cw = Err e <-> refused (crop_needs (nr frame) (nc frame) lr lc rw cw) e.
Proof.
  pose proof (crop_ok frame lr lc rw cw) as K. unfold crop in *. unfold crop_needs, each. cbn [map app].
  apply check_step; [one|intros H1]. apply check_step; [one|intros H2]. apply check_step; [one|intros H3].
  apply check_step; [one|intros H4]. apply check_step; [one|intros H5]. apply check_step; [one|intros H6].
  destruct K as (o & E & _); auto.
  rewrite guard_true in E by (apply Z.leb_le; auto). rewrite guard_true in E by (apply Z.leb_le; auto).
  rewrite guard_true in E by (apply Z.ltb_lt; auto). rewrite guard_true in E by (apply Z.ltb_lt; auto).
  rewrite guard_true in E by (apply not_leb_iff; auto). rewrite guard_true in E by (apply not_leb_iff; auto).
  cbv zeta in E |- *. rewrite E. rewrite refused_nil. split; [discriminate|tauto].
Qed.
Lemma corner_refused rc cc rw cw b e : get_crop_lower rc cc rw cw b = Err e <-> refused (corner_needs rc cc rw cw) e.
Proof. unfold get_crop_lower, corner_needs, each. steps. Qed.
Lemma combine_refused {A} (frame : arr (fnan A)) (bp : arr bool) e :
  PadCrop.combine frame bp = Err e <-> e = TypeError /\ ~ (nr bp = nr frame /\ nc bp = nc frame).
Proof.
  unfold PadCrop.combine. rewrite <- (same_iff bp frame). destruct (same_shape bp frame); cbn; split; try discriminate.
  - intros [_ H]. exfalso. auto.
  - intros [= <-]. split; auto.
  - intros [-> _]. auto.
Qed.
Lemma window_refused {A} (zero : A) a n yc xc e : wf a -> offcenter_crop zero a n yc xc = Err e <-> refused (each TypeError [0 < n]) e.
Proof.
  intros W. unfold offcenter_crop, each. cbn [map]. apply check_step; [one|]. intros Hn. cbv zeta. rewrite refused_nil.
  destruct (offcenter_pad_bounds n (nc a) (ZnearestE xc) Hn) as (P1 & P2 & P3); [apply W|].
  destruct (offcenter_pad_bounds n (nr a) (ZnearestE yc) Hn) as (Q1 & Q2 & Q3); [apply W|].
  assert (D : n = n / 2 + (n + 1) / 2) by (pose proof (Z.div_mod n 2 ltac:(lia)); pose proof (Z.div_mod (n + 1) 2 ltac:(lia));
    pose proof (Z.mod_pos_bound n 2 ltac:(lia)); pose proof (Z.mod_pos_bound (n + 1) 2 ltac:(lia)); lia).
  destruct (pad_crop_ok a (nr a + 2 * offcenter_pad n (nr a) (ZnearestE yc))
    (nc a + 2 * offcenter_pad n (nc a) (ZnearestE xc)) zero W) as (o & E & _); [lia|lia|].
  rewrite E. cbn [bind]. split; [discriminate|tauto].
Qed.
Lemma smooth_refused ker a w e : wf a -> smooth_surface ker a w = Err e <-> refused (smooth_needs a w) e.
Proof.
  intros W. unfold smooth_surface, smooth_needs. apply check_step; [one|]. intros _. rewrite refused_iff, refused_nil.
  assert (W' : wf (convolve_same a (ker w))) by exact W.
  destruct (pad_crop (convolve_same a (ker w)) [nr a; nc a] 0%R) as [o|e'] eqn:E.
  - split; [discriminate|]. intros [[N ->]|[_ []]]. destruct (pad_crop_inv _ _ _ _ W' E) as (h & k & [= <- <-] & H1 & H2 & _). tauto.
  - apply pad_crop_err in E as [-> N]; [|exact W']. split.
    + intros [= <-]. left. split; [|auto]. intros [H1 H2]. apply N. eauto.
    + intros [[_ ->]|[_ []]]. auto.
Qed.
Lemma opt1_nothing lstsq xs ys : vlen xs = vlen ys -> vlen xs <= 0 -> find_optimum_1d lstsq xs ys = Err TypeError.
Proof.
  intros E H. unfold find_optimum_1d. rewrite (proj2 (Z.eqb_eq _ _) E). cbn [guard bind]. rewrite (proj2 (Z.ltb_ge _ _) H). reflexivity.
Qed.
