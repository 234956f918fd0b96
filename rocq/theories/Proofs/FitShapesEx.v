(** A contour finder and ellipse fit that follow translations, and small images. *)
From Coq Require Import ZArith Bool List Reals Lra Lia.
From Flocq Require Import Core.
From Verif.Base Require Import Py Arr.
From Verif.Model Require Import Fits PadCrop FitShapes.
From Verif.Spec Require Import FitsSpec FitShapesSpec.
From Verif.Proofs Require Import PadCropP FitsP FitShapesP.
Import ListNotations.
Open Scope Z_scope.

(** The bounding box of the mask, as two opposite corners, and the ellipse inscribed in it. *)
Definition least (d : Z) (l : list Z) : Z := fold_right Z.min d l.
Definition greatest (d : Z) (l : list Z) : Z := fold_right Z.max d l.
Definition lit_list (b : arr bool) : list (Z * Z) := filter (fun p => at2 b (fst p) (snd p)) (indices (nr b) (nc b)).
Definition box_contours : contours_fun := fun b =>
  match lit_list b with
  | [] => []
  | (i, j) :: l => [[(least j (map snd l), least i (map fst l)); (greatest j (map snd l), greatest i (map fst l))]]
  end.
Definition box_ellipse : cv_ellipse_fun := fun c =>
  match c with
  | [(x0, y0); (x1, y1)] => Ok (IZR (x0 + x1) / 2, IZR (y0 + y1) / 2, IZR (x1 - x0), IZR (y1 - y0))%R
  | _ => Err ValueError
  end.
Lemma in_lit_list b p : In p (lit_list b) <-> lit b (fst p) (snd p).
Proof. unfold lit_list. rewrite filter_In, in_indices. unfold lit, in_arr. reflexivity. Qed.
Lemma least_spec d l : In (least d l) (d :: l) /\ forall x, In x (d :: l) -> least d l <= x.
Proof.
  induction l as [|a l [I H]]; cbn [least fold_right].
  - split; [left; reflexivity|]. intros x [->|[]]. lia.
  - fold (least d l) in *. split.
    + destruct (Z.min_spec a (least d l)) as [[_ ->]|[_ ->]]; [right; left; reflexivity|]. destruct I as [I|I]; [left|right; right]; exact I.
    + intros x [->|[->|J]]; [pose proof (H x (or_introl eq_refl))| |pose proof (H x (or_intror J))]; lia.
Qed.
Lemma greatest_spec d l : In (greatest d l) (d :: l) /\ forall x, In x (d :: l) -> x <= greatest d l.
Proof.
  induction l as [|a l [I H]]; cbn [greatest fold_right].
  - split; [left; reflexivity|]. intros x [->|[]]. lia.
  - fold (greatest d l) in *. split.
    + destruct (Z.max_spec a (greatest d l)) as [[_ ->]|[_ ->]]; [|right; left; reflexivity]. destruct I as [I|I]; [left|right; right]; exact I.
    + intros x [->|[->|J]]; [pose proof (H x (or_introl eq_refl))| |pose proof (H x (or_intror J))]; lia.
Qed.
Lemma least_moved d l d' l' k : (forall x, In x (d' :: l') <-> In (x - k) (d :: l)) -> least d' l' = least d l + k.
Proof.
  intros H. destruct (least_spec d l) as [A B], (least_spec d' l') as [A' B'].
  pose proof (B _ (proj1 (H _) A')). pose proof (B' (least d l + k) ltac:(apply H; replace (least d l + k - k) with (least d l) by lia; exact A)). lia.
Qed.
Lemma greatest_moved d l d' l' k : (forall x, In x (d' :: l') <-> In (x - k) (d :: l)) -> greatest d' l' = greatest d l + k.
Proof.
  intros H. destruct (greatest_spec d l) as [A B], (greatest_spec d' l') as [A' B'].
  pose proof (B _ (proj1 (H _) A')). pose proof (B' (greatest d l + k) ltac:(apply H; replace (greatest d l + k - k) with (greatest d l) by lia; exact A)). lia.
Qed.
Lemma box_follows : follow_translations box_contours box_ellipse.
Proof.
  split.
  - intros dy dx b b' (_ & _ & M).
    assert (L : forall p, In p (lit_list b') <-> In (fst p - dy, snd p - dx) (lit_list b)).
    { intros p. rewrite !in_lit_list. apply M. }
    unfold box_contours. destruct (lit_list b') as [|[i' j'] l'] eqn:E', (lit_list b) as [|[i j] l] eqn:E; cbn [map move_points].
    + reflexivity.
    + exfalso. apply (proj2 (L (i + dy, j + dx))). cbn [fst snd]. left. f_equal; lia.
    + exfalso. apply (proj1 (L (i', j'))). left. reflexivity.
    + assert (Fs : forall x, In x (i' :: map fst l') <-> In (x - dy) (i :: map fst l)).
      { intros x. change (i' :: map fst l') with (map fst ((i', j') :: l')). change (i :: map fst l) with (map fst ((i, j) :: l)).
        rewrite !in_map_iff. split.
        - intros (p & <- & I). exists (fst p - dy, snd p - dx). split; [reflexivity|]. apply L. exact I.
        - intros (p & P & I). exists (fst p + dy, snd p + dx). split; [cbn [fst]; lia|]. apply L. cbn [fst snd].
          replace (fst p + dy - dy, snd p + dx - dx) with p by (destruct p; cbn [fst snd]; f_equal; lia). exact I. }
      assert (Sn : forall x, In x (j' :: map snd l') <-> In (x - dx) (j :: map snd l)).
      { intros x. change (j' :: map snd l') with (map snd ((i', j') :: l')). change (j :: map snd l) with (map snd ((i, j) :: l)).
        rewrite !in_map_iff. split.
        - intros (p & <- & I). exists (fst p - dy, snd p - dx). split; [reflexivity|]. apply L. exact I.
        - intros (p & P & I). exists (fst p + dy, snd p + dx). split; [cbn [snd]; lia|]. apply L. cbn [fst snd].
          replace (fst p + dy - dy, snd p + dx - dx) with p by (destruct p; cbn [fst snd]; f_equal; lia). exact I. }
      rewrite (least_moved _ _ _ _ _ Fs), (greatest_moved _ _ _ _ _ Fs), (least_moved _ _ _ _ _ Sn), (greatest_moved _ _ _ _ _ Sn). reflexivity.
  - intros dy dx c. destruct c as [|[x0 y0] [|[x1 y1] [|z c]]]; try reflexivity. cbn. f_equal. f_equal; [f_equal; [f_equal|]|].
    + rewrite !plus_IZR. lra.
    + rewrite !plus_IZR. lra.
    + f_equal. lia.
    + f_equal. lia.
Qed.
(** A ring of ones in a 5 by 5 image, filled by one dilation and erosion. *)
Definition ring5 : arr R := Arr 5 5 (fun i j => if (1 <=? i) && (i <=? 3) && (1 <=? j) && (j <=? 3) && negb ((i =? 2) && (j =? 2)) then 1%R else 0%R).
Lemma ring5_zero_one : zero_one_image ring5.
Proof.
  split; [|split].
  - intros i j _. cbn [ring5 at2]. destruct (_ && _); auto.
  - exists 2, 2. split; [split; cbn; lia|]. reflexivity.
  - exists 1, 3. split; [split; cbn; lia|]. reflexivity.
Qed.
Definition ring5_right : arr R := Arr 5 5 (fun i j => at2 ring5 i (j - 1)).
Lemma ring5_right_zero_one : zero_one_image ring5_right.
Proof.
  split; [|split].
  - intros i j _. cbn [ring5_right ring5 at2]. destruct (_ && _); auto.
  - exists 2, 3. split; [split; cbn; lia|]. reflexivity.
  - exists 1, 3. split; [split; cbn; lia|]. reflexivity.
Qed.
Lemma ring5_moves i j : bright ring5_right i j <-> bright ring5 (i - 0) (j - 1).
Proof.
  unfold bright, in_arr. rewrite Z.sub_0_r. cbn [ring5_right nr nc at2]. unfold ring5; cbn [nr nc at2].
  destruct (Z.leb_spec 1 i), (Z.leb_spec i 3), (Z.leb_spec 1 (j - 1)), (Z.leb_spec (j - 1) 3); cbn [andb];
    try (split; intros [_ ?]; lra).
  split; intros [_ E]; (split; [lia|exact E]).
Qed.
(** The hole at the centre is filled. *)
Lemma ring5_filled m blob : nr m = 5 -> nc m = 5 -> (forall i j, lit m i j <-> bright ring5 i j) -> closing 1 m blob -> lit blob 2 2 /\ ~ lit m 2 2.
Proof.
  intros H1 H2 L (_ & _ & C). split.
  - apply C. split; [lia|]. intros i' j' A B.
    assert (K : forall i j, 1 <= i <= 3 -> 1 <= j <= 3 -> (i <> 2 \/ j <> 2) -> lit m i j).
    { intros i j Hi Hj Ne. apply L. split; [split; cbn; lia|]. cbn [ring5 at2].
      destruct (Z.leb_spec 1 i); [|lia]. destruct (Z.leb_spec i 3); [|lia]. destruct (Z.leb_spec 1 j); [|lia]. destruct (Z.leb_spec j 3); [|lia].
      destruct (Z.eqb_spec i 2), (Z.eqb_spec j 2); cbn; auto. lia. }
    destruct (Z.eq_dec i' 2) as [->|]; [|exists i', j'; split; [apply K; lia|lia]].
    destruct (Z.eq_dec j' 2) as [->|]; [exists 1, 2; split; [apply K; lia|lia]|exists 2, j'; split; [apply K; lia|lia]].
  - intros H. apply L in H. destruct H as [_ H]. cbn in H. lra.
Qed.
(** Without padding, a pupil on the edge of the image is eroded away. *)
Definition corner3 : arr R := Arr 3 3 (fun i j => if (i =? 0) && (j =? 1) then 1%R else 0%R).
Lemma corner3_lost : exists m, ampthresh corner3 21 = Ok m /\ recentred 3 corner3 corner3 /\
  round_up (1 * IZR (Z.max (nr corner3) (nc corner3))) 3 /\ lit m 0 1 /\ forall blob, closing 1 m blob -> ~ lit blob 0 1.
Proof.
  assert (Z : zero_one_image corner3).
  { split; [|split].
    - intros i j _. cbn [corner3 at2]. destruct (_ && _); auto.
    - exists 2, 2. split; [split; cbn; lia|]. reflexivity.
    - exists 0, 1. split; [split; cbn; lia|]. reflexivity. }
  destruct (two_level_thresh corner3 Z) as (m & E & M1 & M2 & L). exists m. split; [exact E|]. split; [|split; [|split]].
  - split; [reflexivity|]. split; [reflexivity|]. intros i j I. cbn [corner3 nr nc]. change (3 / 2) with 1.
    replace (i - 1 + 1) with i by lia. replace (j - 1 + 1) with j by lia. split; [reflexivity|]. intros N. contradiction.
  - unfold round_up. cbn. lra.
  - apply L. split; [split; cbn; lia|reflexivity].
  - intros blob (_ & _ & C) H. apply C in H. lia.
Qed.
Lemma ring5_fit : exists d x y, fit_ellipse box_contours box_ellipse ring5 1 2 = Ok (d, x, y) /\
  fit_ellipse box_contours box_ellipse ring5_right 1 2 = Ok (d, x + 1, y + 0)%R.
Proof.
  assert (RU : round_up (2 * IZR (Z.max (nr ring5) (nc ring5))) 10) by (unfold round_up; cbn; lra).
  assert (Pd : pads 1 10 ring5) by (unfold pads; cbn; lia).
  assert (S : fit_ellipse box_contours box_ellipse ring5_right 1 2 =
    match fit_ellipse box_contours box_ellipse ring5 1 2 with Ok (d, x, y) => Ok (d, x + 1, y + 0)%R | Err e => Err e end).
  { exact (fit_ellipse_moves box_contours box_ellipse ring5 ring5_right 1 2 10 0 1 box_follows ltac:(lia) ring5_zero_one ring5_right_zero_one
      eq_refl eq_refl ring5_moves RU Pd). }
  assert (G : exists r, fit_ellipse box_contours box_ellipse ring5 1 2 = Ok r).
  { assert (W : wf ring5) by (split; cbn; lia).
    unfold fit_ellipse. rewrite (proj2 (zceil_round_up _ _) RU).
    destruct (pad_crop_ok ring5 10 10 0%R W ltac:(lia) ltac:(lia)) as (p & EP & _). rewrite EP. cbn [bind].
    destruct (pad_crop_recentred _ _ _ W EP) as [_ R].
    destruct (two_level_thresh p) as (m & EM & _); [apply (recentred_two_level 10 ring5 p ring5_zero_one R); cbn; lia|].
    rewrite EM. cbn [bind]. destruct (thresh_of_image ring5 10 p m ring5_zero_one R ltac:(cbn; lia) ltac:(cbn; lia) EM) as (M1 & M2 & L).
    set (blob := dilate_erode 1 m).
    assert (K : lit blob 4 4).
    { apply (closing_ideal 1 m blob ltac:(lia) (dilate_erode_closing 1 m ltac:(lia))).
      - intros i j H. apply L in H. destruct H as [[A B] _]. cbn in A, B. rewrite M1, M2. lia.
      - apply L. split; [split; cbn; lia|reflexivity]. }
    unfold box_contours. destruct (lit_list blob) as [|[i j] l] eqn:Q.
    - exfalso. pose proof (proj2 (in_lit_list blob (4, 4)) K) as H. rewrite Q in H. exact H.
    - cbn [box_ellipse bind]. eexists. reflexivity. }
  destruct G as [[[d x] y] G]. exists d, x, y. rewrite S, G. auto.
Qed.
