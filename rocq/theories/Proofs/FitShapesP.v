(** Circle and ellipse fits. *)
From Coq Require Import ZArith Bool List Reals Lra Lia.
From Flocq Require Import Core.
From Verif.Base Require Import Py Arr.
From Verif.Model Require Import Fits PadCrop FitShapes.
From Verif.Spec Require Import FitsSpec FitShapesSpec.
From Verif.Proofs Require Import PadCropP FitsP PupilUtilEx.
Import ListNotations.
Open Scope Z_scope.

(** ** Dilation and erosion *)
Lemma in_block d : In d block <-> -1 <= fst d <= 1 /\ -1 <= snd d <= 1.
Proof.
  destruct d as [a b]. unfold block. rewrite in_prod_iff. cbn [fst snd In]. split; lia.
Qed.
Lemma neighbour_lit a i j d : neighbour a i j d = true <-> lit a (i + fst d) (j + snd d).
Proof. unfold neighbour, lit. rewrite andb_true_iff, in_arrb_spec. reflexivity. Qed.
Lemma dilate1_lit a i j : lit (dilate1 a) i j <-> in_arr a i j /\ exists di dj, -1 <= di <= 1 /\ -1 <= dj <= 1 /\ lit a (i + di) (j + dj).
Proof.
  unfold lit at 1. cbn [dilate1 at2]. unfold in_arr at 1. cbn [dilate1 nr nc]. fold (in_arr a i j). rewrite existsb_exists.
  split; intros [I H]; (split; [exact I|]).
  - destruct H as ([di dj] & B & N). apply in_block in B. apply neighbour_lit in N. exists di, dj. cbn [fst snd] in *. tauto.
  - destruct H as (di & dj & A & B & L). exists (di, dj). rewrite in_block, neighbour_lit. cbn [fst snd]. tauto.
Qed.
Lemma erode1_lit a i j : lit (erode1 a) i j <-> forall di dj, -1 <= di <= 1 -> -1 <= dj <= 1 -> lit a (i + di) (j + dj).
Proof.
  unfold lit at 1. cbn [erode1 at2]. unfold in_arr at 1. cbn [erode1 nr nc]. fold (in_arr a i j). rewrite forallb_forall.
  split.
  - intros [_ H] di dj A B. specialize (H (di, dj)). rewrite in_block, neighbour_lit in H. cbn [fst snd] in H. tauto.
  - intros H. split.
    + destruct (H 0 0 ltac:(lia) ltac:(lia)) as [K _]. rewrite !Z.add_0_r in K. exact K.
    + intros [di dj] B. apply in_block in B. apply neighbour_lit. apply H; tauto.
Qed.
Lemma iter_shape (f : arr bool -> arr bool) k a : (forall b, nr (f b) = nr b /\ nc (f b) = nc b) -> nr (Nat.iter k f a) = nr a /\ nc (Nat.iter k f a) = nc a.
Proof. intros H. induction k as [|k IH]; cbn [Nat.iter nat_rect]; [auto|]. destruct (H (Nat.iter k f a)). unfold Nat.iter in *. intuition congruence. Qed.
Lemma dilate_lit k a i j : lit (Nat.iter k dilate1 a) i j <->
  in_arr a i j /\ exists i' j', lit a i' j' /\ Z.abs (i' - i) <= Z.of_nat k /\ Z.abs (j' - j) <= Z.of_nat k.
Proof.
  revert i j. induction k as [|k IH]; intros i j.
  - cbn [Nat.iter nat_rect]. split.
    + intros L. split; [apply L|]. exists i, j. split; [exact L|]. lia.
    + intros [_ (i' & j' & L & A & B)]. replace i with i' by lia. replace j with j' by lia. exact L.
  - change (Nat.iter (S k) dilate1 a) with (dilate1 (Nat.iter k dilate1 a)). rewrite dilate1_lit.
    destruct (iter_shape dilate1 k a) as [S1 S2]; [intros; split; reflexivity|].
    assert (E : in_arr (Nat.iter k dilate1 a) i j <-> in_arr a i j) by (unfold in_arr; rewrite S1, S2; reflexivity). rewrite E.
    split; intros [I H]; (split; [exact I|]).
    + destruct H as (di & dj & A & B & L). apply IH in L as [_ (i' & j' & L & C & D)]. exists i', j'. split; [exact L|]. lia.
    + destruct H as (i' & j' & L & C & D).
      assert (G : forall u u', Z.abs (u' - u) <= Z.of_nat (S k) -> exists d, -1 <= d <= 1 /\ Z.abs (u' - (u + d)) <= Z.of_nat k /\ (u <= u + d <= u' \/ u' <= u + d <= u)).
      { intros u u' Hu. destruct (Z_lt_le_dec u u'); [exists 1|destruct (Z_lt_le_dec u' u); [exists (-1)|exists 0]]; lia. }
      destruct (G i i' C) as (di & d1 & d2 & d3). destruct (G j j' D) as (dj & e1 & e2 & e3).
      exists di, dj. split; [exact d1|]. split; [exact e1|]. apply IH. split.
      * destruct L as [[L1 L2] _]. destruct I. unfold in_arr. lia.
      * exists i', j'. auto.
Qed.
Lemma erode_lit k a i j : lit (Nat.iter k erode1 a) i j <->
  forall i' j', Z.abs (i' - i) <= Z.of_nat k -> Z.abs (j' - j) <= Z.of_nat k -> lit a i' j'.
Proof.
  revert i j. induction k as [|k IH]; intros i j.
  - cbn [Nat.iter nat_rect]. split.
    + intros L i' j' A B. replace i' with i by lia. replace j' with j by lia. exact L.
    + intros H. apply H; lia.
  - change (Nat.iter (S k) erode1 a) with (erode1 (Nat.iter k erode1 a)). rewrite erode1_lit. split.
    + intros H i' j' A B.
      assert (G : forall u u', Z.abs (u' - u) <= Z.of_nat (S k) -> exists d, -1 <= d <= 1 /\ Z.abs (u' - (u + d)) <= Z.of_nat k).
      { intros u u' Hu. destruct (Z_lt_le_dec u u'); [exists 1|destruct (Z_lt_le_dec u' u); [exists (-1)|exists 0]]; lia. }
      destruct (G i i' A) as (di & d1 & d2). destruct (G j j' B) as (dj & e1 & e2).
      exact (proj1 (IH _ _) (H di dj d1 e1) i' j' d2 e2).
    + intros H di dj A B. apply IH. intros i' j' C D. apply H; lia.
Qed.
Lemma close_lit k m i j : lit (Nat.iter k erode1 (Nat.iter k dilate1 m)) i j <->
  (Z.of_nat k <= i < nr m - Z.of_nat k /\ Z.of_nat k <= j < nc m - Z.of_nat k) /\ closed_by (lit m) (Z.of_nat k) i j.
Proof.
  rewrite erode_lit. split.
  - intros H. split.
    + destruct (proj1 (dilate_lit _ _ _ _) (H (i - Z.of_nat k) (j - Z.of_nat k) ltac:(lia) ltac:(lia))) as [[I1 I2] _].
      destruct (proj1 (dilate_lit _ _ _ _) (H (i + Z.of_nat k) (j + Z.of_nat k) ltac:(lia) ltac:(lia))) as [[J1 J2] _]. lia.
    + intros i' j' A B. apply (dilate_lit k m i' j'). apply H; assumption.
  - intros [I H] i' j' A B. apply dilate_lit. split; [unfold in_arr; lia|]. apply H; assumption.
Qed.
Lemma dilate_erode_closing n m : 0 <= n -> closing n m (dilate_erode n m).
Proof.
  intros Hn. unfold dilate_erode, passes. destruct (Z.eqb_spec n 0) as [->|N0].
  - split; [reflexivity|]. split; [reflexivity|]. intros i j. rewrite !Z.sub_0_r. split.
    + intros L. split; [apply L|]. intros i' j' A B. exists i', j'. replace i' with i by lia. replace j' with j by lia. split; [exact L|lia].
    + intros [_ H]. destruct (H i j ltac:(lia) ltac:(lia)) as (i' & j' & L & A & B). replace i with i' by lia. replace j with j' by lia. exact L.
  - destruct (Z.ltb_spec n 1); [lia|].
    destruct (iter_shape dilate1 (Z.to_nat n) m) as [S1 S2]; [intros; split; reflexivity|].
    destruct (iter_shape erode1 (Z.to_nat n) (Nat.iter (Z.to_nat n) dilate1 m)) as [S3 S4]; [intros; split; reflexivity|].
    split; [congruence|]. split; [congruence|]. intros i j. rewrite close_lit. rewrite Z2Nat.id by lia. reflexivity.
Qed.
Lemma dilate_erode_negative n m : n < 0 -> wf m -> forall i j, ~ lit (dilate_erode n m) i j.
Proof.
  intros Hn [W1 W2] i j. unfold dilate_erode, passes. destruct (Z.eqb_spec n 0); [lia|]. destruct (Z.ltb_spec n 1); [|lia].
  destruct (iter_shape dilate1 (Z.to_nat (nr m * nc m)) m) as [S1 S2]; [intros; split; reflexivity|]. rewrite S1, S2.
  rewrite close_lit. rewrite Z2Nat.id by nia. intros [[A B] _]. nia.
Qed.
(** Away from the edge the array does not matter. *)
Lemma closing_ideal n m blob : 0 <= n -> closing n m blob ->
  (forall i j, lit m i j -> n <= i < nr m - n /\ n <= j < nc m - n) ->
  (forall i j, lit blob i j <-> closed_by (lit m) n i j) /\ (forall i j, lit m i j -> lit blob i j).
Proof.
  intros Hn (_ & _ & C) M.
  assert (A : forall i j, lit blob i j <-> closed_by (lit m) n i j).
  { intros i j. rewrite C. split; [tauto|]. intros H. split; [|exact H].
    destruct (H (i - n) (j - n) ltac:(lia) ltac:(lia)) as (a & b & L & A1 & A2). destruct (M a b L).
    destruct (H (i + n) (j + n) ltac:(lia) ltac:(lia)) as (a' & b' & L' & A1' & A2'). destruct (M a' b' L').
    lia. }
  split; [exact A|]. intros i j L. apply A. intros i' j' B D. exists i, j. split; [exact L|]. lia.
Qed.

(** ** Ellipse *)
Lemma zceil_round_up x n : Zceil x = n <-> round_up x n.
Proof.
  unfold round_up. split.
  - intros <-. pose proof (Zceil_ub x). pose proof (Zceil_lb x). lra.
  - intros [A B]. apply Zceil_imp. rewrite minus_IZR. lra.
Qed.
Lemma pad_crop_recentred image N p : wf image -> pad_crop image [N; N] 0%R = Ok p -> 0 < N /\ recentred N image p.
Proof.
  intros W E. destruct (pad_crop_inv _ _ _ _ W E) as (h & w & S & Hh & Hw & E1 & E2 & V). injection S as <- <-.
  split; [exact Hh|]. split; [exact E1|]. split; [exact E2|]. intros i j [Hi Hj]. rewrite E1 in Hi. rewrite E2 in Hj.
  rewrite (V i j Hi Hj). split; intros H.
  - rewrite (proj2 (in_arrb_spec _ _ _) H). reflexivity.
  - rewrite (proj2 (in_arrb_false _ _ _) H). reflexivity.
Qed.
Lemma two_halves u v : (2 * Rmax (u / 2) (v / 2) = Rmax u v)%R.
Proof. unfold Rmax. repeat destruct Rle_dec; lra. Qed.
Lemma ellipse_inv contours cv image n f d x y : wf image -> fit_ellipse contours cv image n f = Ok (d, x, y) ->
  exists N p m cnt rest xc yc u v,
    round_up (f * IZR (Z.max (nr image) (nc image))) N /\ 0 < N /\ recentred N image p /\ ampthresh p 21 = Ok m /\
    contours (dilate_erode n m) = cnt :: rest /\ cv cnt = Ok (xc, yc, u, v) /\
    nr m = N /\ nc m = N /\ d = Rmax u v /\ x = (xc - IZR (N / 2))%R /\ y = (yc - IZR (N / 2))%R.
Proof.
  intros W. unfold fit_ellipse. set (N := Zceil _). intros E.
  destruct (pad_crop image [N; N] 0%R) as [p|e] eqn:EP; [|discriminate]. cbn [bind] in E.
  destruct (ampthresh p 21) as [m|e] eqn:EM; [|discriminate]. cbn [bind] in E.
  destruct (contours (dilate_erode n m)) as [|cnt rest] eqn:EC; [discriminate|].
  destruct (cv cnt) as [[[[xc yc] u] v]|e] eqn:EV; [|discriminate]. cbn [bind] in E.
  destruct (pad_crop_recentred _ _ _ W EP) as [HN R]. pose proof (ampthresh_ok _ _ _ EM) as (lo & hi & H & k & _ & _ & _ & _ & _ & _ & _ & M1 & M2 & _).
  assert (S : nr (dilate_erode n m) = N /\ nc (dilate_erode n m) = N).
  { destruct R as (R1 & R2 & _). unfold dilate_erode, passes. destruct (n =? 0); [split; congruence|].
    match goal with |- nr (Nat.iter ?k erode1 (Nat.iter ?l dilate1 m)) = _ /\ _ =>
      destruct (iter_shape dilate1 l m) as [S1 S2]; [intros; split; reflexivity|];
      destruct (iter_shape erode1 k (Nat.iter l dilate1 m)) as [S3 S4]; [intros; split; reflexivity|] end.
    split; congruence. }
  destruct S as [S1 S2]. rewrite S1, S2, two_halves in E. injection E as <- <- <-.
  exists N, p, m, cnt, rest, xc, yc, u, v. pose proof R as (R1 & R2 & _).
  repeat match goal with |- _ /\ _ => split end; auto; try congruence; apply zceil_round_up; reflexivity.
Qed.
Lemma fit_ellipse_ok contours cv image n f d x y : wf image -> 0 <= n -> fit_ellipse contours cv image n f = Ok (d, x, y) ->
  exists N p m blob cnt rest xc yc u v,
    round_up (f * IZR (Z.max (nr image) (nc image))) N /\ 0 < N /\ recentred N image p /\ ampthresh p 21 = Ok m /\
    closing n m blob /\ contours blob = cnt :: rest /\ cv cnt = Ok (xc, yc, u, v) /\
    d = Rmax u v /\ x = (xc - IZR (N / 2))%R /\ y = (yc - IZR (N / 2))%R.
Proof.
  intros W Hn E. destruct (ellipse_inv _ _ _ _ _ _ _ _ W E) as (N & p & m & cnt & rest & xc & yc & u & v & A1 & A2 & A3 & A4 & A5 & A6 & _ & _ & A7 & A8 & A9).
  exists N, p, m, (dilate_erode n m), cnt, rest, xc, yc, u, v. pose proof (dilate_erode_closing n m Hn). tauto.
Qed.
(** For non-negative images padded by n pixels or more, nothing of the pupil is lost. *)
Lemma padding_suffices image N p m n : (forall i j, in_arr image i j -> (0 <= at2 image i j)%R) -> 0 <= n ->
  n <= N / 2 - nr image / 2 -> n <= N / 2 - nc image / 2 ->
  n <= (N - N / 2) - (nr image - nr image / 2) -> n <= (N - N / 2) - (nc image - nc image / 2) ->
  recentred N image p -> ampthresh p 21 = Ok m ->
  forall i j, lit m i j -> n <= i < nr m - n /\ n <= j < nc m - n.
Proof.
  intros Pos Hn H1 H2 H3 H4 (R1 & R2 & R3) E i j [I L].
  pose proof (ampthresh_ok _ _ _ E) as (lo & hi & Hg & k & [[i0 [j0 [I0 V0]]] Mi] & _ & Hlt & _ & Hk & _ & _ & M1 & M2 & V).
  assert (Ip : in_arr p i j) by (unfold in_arr in *; rewrite M1, M2 in I; exact I).
  assert (Lo : (0 <= lo)%R).
  { rewrite <- V0. destruct (R3 i0 j0 I0) as [A B]. destruct (in_arrb image (i0 - N / 2 + nr image / 2) (j0 - N / 2 + nc image / 2)) eqn:Q.
    - apply in_arrb_spec in Q. rewrite (A Q). apply Pos, Q.
    - apply in_arrb_false in Q. rewrite (B Q). lra. }
  apply V in L; [|exact Ip].
  assert (T : (0 < (IZR k + / 2) * (hi - lo) / 21)%R).
  { apply Rdiv_lt_0_compat; [|lra]. apply Rmult_lt_0_compat; [|lra]. assert (1 <= IZR k)%R by (apply IZR_le; lia). lra. }
  assert (Q : in_arr image (i - N / 2 + nr image / 2) (j - N / 2 + nc image / 2)).
  { destruct (in_arrb image (i - N / 2 + nr image / 2) (j - N / 2 + nc image / 2)) eqn:Q; [apply in_arrb_spec, Q|].
    apply in_arrb_false in Q. destruct (R3 i j Ip) as [_ B]. rewrite (B Q) in L. lra. }
  destruct Q. rewrite M1, M2, R1, R2. lia.
Qed.
(** Thresholding an image of zeros and ones gives back its ones. *)
Lemma two_level_thresh image : zero_one_image image -> exists m, ampthresh image 21 = Ok m /\ nr m = nr image /\ nc m = nc image /\
  forall i j, lit m i j <-> bright image i j.
Proof.
  intros (V & Z0 & O1). destruct (two_level_gen image 21 ltac:(lia) V Z0 O1) as [m E]. exists m. split; [exact E|].
  destruct (ampthresh_separates _ _ _ E) as (M1 & M2 & _ & Mx & Mn). split; [exact M1|]. split; [exact M2|].
  intros i j. unfold lit, bright. unfold in_arr at 1. rewrite M1, M2. fold (in_arr image i j).
  split; intros [I L]; (split; [exact I|]).
  - destruct (V i j I) as [Q|Q]; [|exact Q]. exfalso. rewrite Mn in L; [discriminate|exact I|]. rewrite Q. split; [exact Z0|].
    intros a b H. destruct (V a b H); lra.
  - apply Mx; [exact I|]. rewrite L. split; [exact O1|]. intros a b H. destruct (V a b H); lra.
Qed.
Lemma recentred_two_level N image p : zero_one_image image -> recentred N image p -> nr image <= N -> nc image <= N ->
  zero_one_image p /\ forall i j, in_arr p i j -> (bright p i j <-> bright image (i - N / 2 + nr image / 2) (j - N / 2 + nc image / 2)).
Proof.
  intros (V & (i0 & j0 & I0 & V0) & (i1 & j1 & I1 & V1)) (R1 & R2 & R3) Hr Hc.
  assert (In : forall i j, in_arr image i j -> in_arr p (i + N / 2 - nr image / 2) (j + N / 2 - nc image / 2)).
  { intros i j [A B]. unfold in_arr. rewrite R1, R2.
    pose proof (Z.div_mod N 2 ltac:(lia)). pose proof (Z.mod_pos_bound N 2 ltac:(lia)).
    pose proof (Z.div_mod (nr image) 2 ltac:(lia)). pose proof (Z.mod_pos_bound (nr image) 2 ltac:(lia)).
    pose proof (Z.div_mod (nc image) 2 ltac:(lia)). pose proof (Z.mod_pos_bound (nc image) 2 ltac:(lia)). lia. }
  assert (At : forall i j, in_arr image i j -> at2 p (i + N / 2 - nr image / 2) (j + N / 2 - nc image / 2) = at2 image i j).
  { intros i j I. destruct (R3 _ _ (In i j I)) as [A _].
    replace (i + N / 2 - nr image / 2 - N / 2 + nr image / 2) with i in A by lia.
    replace (j + N / 2 - nc image / 2 - N / 2 + nc image / 2) with j in A by lia. auto. }
  split.
  - split; [|split].
    + intros i j I. destruct (R3 i j I) as [A B]. destruct (in_arrb image (i - N / 2 + nr image / 2) (j - N / 2 + nc image / 2)) eqn:Q.
      * apply in_arrb_spec in Q. rewrite (A Q). apply V, Q.
      * apply in_arrb_false in Q. rewrite (B Q). auto.
    + exists (i0 + N / 2 - nr image / 2), (j0 + N / 2 - nc image / 2). split; [apply In; auto|]. rewrite At; auto.
    + exists (i1 + N / 2 - nr image / 2), (j1 + N / 2 - nc image / 2). split; [apply In; auto|]. rewrite At; auto.
  - intros i j I. unfold bright. destruct (R3 i j I) as [A B]. split.
    + intros [_ L]. destruct (in_arrb image (i - N / 2 + nr image / 2) (j - N / 2 + nc image / 2)) eqn:Q.
      * apply in_arrb_spec in Q. rewrite (A Q) in L. auto.
      * apply in_arrb_false in Q. rewrite (B Q) in L. lra.
    + intros [Q L]. rewrite (A Q). auto.
Qed.
Lemma ampthresh_aeq a b n : aeq a b ->
  match ampthresh a n, ampthresh b n with Ok u, Ok v => aeq u v | Err e, Err e' => e = e' | _, _ => False end.
Proof.
  intros (A & B & C).
  assert (E : elements a = elements b).
  { unfold elements. rewrite <- A, <- B. apply map_ext_in. intros [i j] H. apply in_indices in H. apply C. exact H. }
  unfold ampthresh, guard. rewrite E. destruct (0 <? n); cbn [bind]; [|reflexivity].
  destruct (elements b); [reflexivity|]. cbv zeta. destruct Req_EM_T; [reflexivity|].
  destruct (filter _ _); [reflexivity|]. split; [exact A|]. split; [exact B|]. intros i j I. cbn [amap at2]. rewrite C; [reflexivity|exact I].
Qed.
Lemma recentred_aeq N a p p' : recentred N a p -> recentred N a p' -> aeq p p'.
Proof.
  intros (R1 & R2 & R3) (S1 & S2 & S3). split; [congruence|]. split; [congruence|]. intros i j I.
  assert (I' : in_arr p' i j) by (unfold in_arr in *; rewrite S1, S2; rewrite R1, R2 in I; exact I).
  destruct (R3 i j I) as [A B], (S3 i j I') as [A' B'].
  destruct (in_arrb a (i - N / 2 + nr a / 2) (j - N / 2 + nc a / 2)) eqn:Q.
  - apply in_arrb_spec in Q. rewrite A, A'; auto.
  - apply in_arrb_false in Q. rewrite B, B'; auto.
Qed.
Lemma recentred_scale N a p s : recentred N a p -> recentred N (amap (fun v => s * v)%R a) (amap (fun v => s * v)%R p).
Proof.
  intros (R1 & R2 & R3). split; [exact R1|]. split; [exact R2|]. intros i j I. destruct (R3 i j I) as [A B].
  cbn [amap at2 nr nc]. split; intros H; [rewrite A by exact H; reflexivity|rewrite B by exact H; ring].
Qed.
Lemma aeq_lit a b : aeq a b <-> nr a = nr b /\ nc a = nc b /\ forall i j, lit a i j <-> lit b i j.
Proof.
  split.
  - intros (A & B & C). split; [exact A|]. split; [exact B|]. intros i j. unfold lit.
    assert (I : in_arr a i j <-> in_arr b i j) by (unfold in_arr; rewrite A, B; reflexivity).
    split; intros [H L]; (split; [tauto|]); [rewrite <- C by exact H|rewrite C by (apply I, H)]; exact L.
  - intros (A & B & C). split; [exact A|]. split; [exact B|]. intros i j I. specialize (C i j). unfold lit in C.
    assert (I' : in_arr b i j) by (unfold in_arr in *; rewrite <- A, <- B; exact I).
    destruct (at2 a i j), (at2 b i j); try reflexivity; intuition congruence.
Qed.
Lemma dilate_erode_shape n m : nr (dilate_erode n m) = nr m /\ nc (dilate_erode n m) = nc m.
Proof.
  unfold dilate_erode, passes. destruct (n =? 0); [split; reflexivity|].
  match goal with |- nr (Nat.iter ?k erode1 (Nat.iter ?l dilate1 m)) = _ /\ _ =>
    destruct (iter_shape dilate1 l m) as [S1 S2]; [intros; split; reflexivity|];
    destruct (iter_shape erode1 k (Nat.iter l dilate1 m)) as [S3 S4]; [intros; split; reflexivity|] end.
  split; congruence.
Qed.
(** Translated masks have translated closings. *)
Lemma closed_by_moved (P Q : Z -> Z -> Prop) dy dx n i j : (forall i j, Q i j <-> P (i - dy) (j - dx)) ->
  (closed_by Q n i j <-> closed_by P n (i - dy) (j - dx)).
Proof.
  intros H. split; intros C i' j' A B.
  - destruct (C (i' + dy) (j' + dx) ltac:(lia) ltac:(lia)) as (a & b & L & D & E). apply H in L. exists (a - dy), (b - dx). split; [exact L|]. lia.
  - destruct (C (i' - dy) (j' - dx) ltac:(lia) ltac:(lia)) as (a & b & L & D & E). exists (a + dy), (b + dx).
    split; [|lia]. apply H. replace (a + dy - dy) with a by lia. replace (b + dx - dx) with b by lia. exact L.
Qed.
Lemma dilate_erode_aeq n a b : wf a -> aeq a b -> aeq (dilate_erode n a) (dilate_erode n b).
Proof.
  intros W E. pose proof (proj1 (aeq_lit a b) E) as (A & B & C). apply aeq_lit.
  destruct (dilate_erode_shape n a) as [S1 S2]. destruct (dilate_erode_shape n b) as [S3 S4].
  split; [congruence|]. split; [congruence|]. intros i j.
  destruct (Z_lt_le_dec n 0) as [N|N].
  - assert (wf b) by (unfold wf in *; rewrite <- A, <- B; exact W).
    pose proof (dilate_erode_negative n a N W i j). pose proof (dilate_erode_negative n b N H i j). tauto.
  - destruct (dilate_erode_closing n a N) as (_ & _ & U). destruct (dilate_erode_closing n b N) as (_ & _ & V).
    rewrite U, V, A, B. assert (closed_by (lit b) n i j <-> closed_by (lit a) n i j); [|tauto].
    rewrite (closed_by_moved (lit a) (lit b) 0 0); [rewrite !Z.sub_0_r; reflexivity|]. intros u v. rewrite !Z.sub_0_r. symmetry. apply C.
Qed.
Lemma fit_ellipse_scale contours cv image n f s : wf image -> (0 < s)%R ->
  (forall b b', aeq b b' -> contours b = contours b') -> forall r, fit_ellipse contours cv image n f = Ok r ->
  fit_ellipse contours cv (amap (fun v => s * v)%R image) n f = Ok r.
Proof.
  intros W Hs X r. unfold fit_ellipse. cbn [amap nr nc]. set (N := Zceil _). intros E.
  destruct (pad_crop image [N; N] 0%R) as [p|e] eqn:EP; [|discriminate]. cbn [bind] in E.
  destruct (pad_crop_recentred _ _ _ W EP) as [HN R].
  destruct (pad_crop_ok (amap (fun v => s * v)%R image) N N 0%R W HN HN) as (p' & EP' & _).
  fold (amap (fun v => s * v)%R image). rewrite EP'. cbn [bind].
  destruct (pad_crop_recentred _ _ _ (W : wf (amap (fun v => s * v)%R image)) EP') as [_ R'].
  destruct (ampthresh p 21) as [m|e] eqn:EM; [|discriminate]. cbn [bind] in E.
  destruct (ampthresh_affine p 21 m s 0 Hs EM) as (m1 & E1 & A1).
  assert (AE : aeq p' (amap (fun v => s * v + 0)%R p)).
  { eapply aeq_trans; [eapply recentred_aeq; [exact R'|apply recentred_scale; exact R]|].
    split; [reflexivity|]. split; [reflexivity|]. intros i j _. cbn [amap at2]. ring. }
  pose proof (ampthresh_aeq p' _ 21 AE) as T. rewrite E1 in T. destruct (ampthresh p' 21) as [m'|]; [|contradiction]. cbn [bind].
  assert (AM : aeq m' m) by (eapply aeq_trans; eauto).
  assert (Wm : wf m').
  { destruct AM as (Q1 & Q2 & _). pose proof (ampthresh_ok _ _ _ EM) as (lo & hi & H & k & _ & _ & _ & _ & _ & _ & _ & M1 & M2 & _).
    destruct R as (R1 & R2 & _). unfold wf. rewrite Q1, Q2, M1, M2, R1, R2. lia. }
  pose proof (dilate_erode_aeq n m' m Wm AM) as D. rewrite (X _ _ D). destruct D as (D1 & D2 & _). rewrite D1, D2. exact E.
Qed.
(** A zero-one image moved inside its frame: same diameter, offsets moved. *)
Lemma thresh_of_image image N p m : zero_one_image image -> recentred N image p -> nr image <= N -> nc image <= N ->
  ampthresh p 21 = Ok m -> nr m = N /\ nc m = N /\ forall i j, lit m i j <-> bright image (i - N / 2 + nr image / 2) (j - N / 2 + nc image / 2).
Proof.
  intros Z R Hr Hc E. destruct (recentred_two_level N image p Z R Hr Hc) as [T B].
  destruct (two_level_thresh p T) as (m0 & E0 & M1 & M2 & V). rewrite E in E0. injection E0 as <-.
  pose proof R as (R1 & R2 & R3). split; [congruence|]. split; [congruence|]. intros i j. rewrite V. split.
  - intros H. apply B; [apply H|exact H].
  - intros H. apply B; [|exact H]. destruct H as [[A1 A2] _]. unfold in_arr. rewrite R1, R2.
    pose proof (Z.div_mod N 2 ltac:(lia)). pose proof (Z.mod_pos_bound N 2 ltac:(lia)).
    pose proof (Z.div_mod (nr image) 2 ltac:(lia)). pose proof (Z.mod_pos_bound (nr image) 2 ltac:(lia)).
    pose proof (Z.div_mod (nc image) 2 ltac:(lia)). pose proof (Z.mod_pos_bound (nc image) 2 ltac:(lia)). lia.
Qed.
Lemma fit_ellipse_moves contours cv image image' n f N dy dx : follow_translations contours cv -> 0 <= n ->
  zero_one_image image -> zero_one_image image' -> nr image' = nr image -> nc image' = nc image ->
  (forall i j, bright image' i j <-> bright image (i - dy) (j - dx)) ->
  round_up (f * IZR (Z.max (nr image) (nc image))) N -> pads n N image ->
  fit_ellipse contours cv image' n f =
    match fit_ellipse contours cv image n f with Ok (d, x, y) => Ok (d, x + IZR dx, y + IZR dy)%R | Err e => Err e end.
Proof.
  intros [F1 F2] Hn Z Z' Hr Hc Mv RU ((P1 & P2) & P3 & P4).
  pose proof Z as (_ & (i0 & j0 & I0 & _) & _). assert (W : wf image) by (unfold wf; destruct I0; lia).
  assert (W' : wf image') by (unfold wf in *; lia).
  unfold fit_ellipse. rewrite Hr, Hc. apply zceil_round_up in RU. rewrite RU.
  assert (Hr0 : nr image <= N) by lia. assert (Hc0 : nc image <= N) by lia. assert (HN : 0 < N) by (destruct I0; lia).
  destruct (pad_crop_ok image N N 0%R W HN HN) as (p & EP & _). destruct (pad_crop_ok image' N N 0%R W' HN HN) as (p' & EP' & _).
  rewrite EP, EP'. cbn [bind].
  destruct (pad_crop_recentred _ _ _ W EP) as [_ R]. destruct (pad_crop_recentred _ _ _ W' EP') as [_ R'].
  destruct (two_level_thresh p) as (m & EM & _); [apply (recentred_two_level N image p Z R Hr0 Hc0)|].
  destruct (two_level_thresh p') as (m' & EM' & _); [apply (recentred_two_level N image' p' Z' R'); lia|].
  rewrite EM, EM'. cbn [bind].
  destruct (thresh_of_image image N p m Z R Hr0 Hc0 EM) as (M1 & M2 & L).
  destruct (thresh_of_image image' N p' m' Z' R' ltac:(lia) ltac:(lia) EM') as (M1' & M2' & L').
  assert (ML : forall i j, lit m' i j <-> lit m (i - dy) (j - dx)).
  { intros i j. rewrite L, L', Mv, Hr, Hc.
    replace (i - N / 2 + nr image / 2 - dy) with (i - dy - N / 2 + nr image / 2) by lia.
    replace (j - N / 2 + nc image / 2 - dx) with (j - dx - N / 2 + nc image / 2) by lia. reflexivity. }
  assert (Mg : forall i j, lit m i j -> n <= i < nr m - n /\ n <= j < nc m - n).
  { intros i j H. apply L in H. destruct H as [[A B] _]. rewrite M1, M2. lia. }
  assert (Mg' : forall i j, lit m' i j -> n <= i < nr m' - n /\ n <= j < nc m' - n).
  { intros i j H. apply L' in H. destruct H as [[A B] _]. rewrite M1', M2', Hr, Hc in *. lia. }
  assert (MV : moved dy dx (dilate_erode n m) (dilate_erode n m')).
  { destruct (dilate_erode_shape n m) as [S1 S2]. destruct (dilate_erode_shape n m') as [S3 S4].
    split; [congruence|]. split; [congruence|]. intros i j.
    destruct (closing_ideal n m _ Hn (dilate_erode_closing n m Hn) Mg) as [C _].
    destruct (closing_ideal n m' _ Hn (dilate_erode_closing n m' Hn) Mg') as [C' _].
    rewrite C, C'. apply closed_by_moved. exact ML. }
  rewrite (F1 _ _ _ _ MV). destruct (contours (dilate_erode n m)) as [|c rest]; [reflexivity|]. cbn [map].
  rewrite F2. destruct MV as (S1 & S2 & _). rewrite S1, S2.
  destruct (cv c) as [[[[xc yc] u] v]|e]; cbn [move_ellipse bind]; [|reflexivity].
  f_equal. f_equal; [f_equal|]; ring.
Qed.
Lemma fit_ellipse_err contours cv image n f : wf image ->
  ((f * IZR (Z.max (nr image) (nc image)) <= 0)%R -> fit_ellipse contours cv image n f = Err TypeError) /\
  (n < 0 -> (forall b, (forall i j, ~ lit b i j) -> contours b = []) -> forall r, fit_ellipse contours cv image n f <> Ok r).
Proof.
  intros W. split.
  - intros H. unfold fit_ellipse. assert (Zceil (f * IZR (Z.max (nr image) (nc image))) <= 0).
    { apply Zceil_glb. exact H. }
    unfold pad_crop at 1, guard. destruct (Z.ltb_spec 0 (Zceil (f * IZR (Z.max (nr image) (nc image))))); [lia|]. reflexivity.
  - intros N C [[d x] y] E. destruct (ellipse_inv _ _ _ _ _ _ _ _ W E) as (N0 & p & m & cnt & rest & xc & yc & u & v & _ & HN & _ & _ & EC & _ & M1 & M2 & _).
    rewrite C in EC; [discriminate|]. apply dilate_erode_negative; [exact N|]. unfold wf. lia.
Qed.

(** ** Circle *)
Lemma fit_circle_ok canny hough image r0 r1 sigma x y r :
  fit_circle canny hough image r0 r1 sigma = Ok (x, y, r) <->
  0 < r0 < r1 /\ (0 < sigma)%R /\ exists m radii cx cy rest, ampthresh image 21 = Ok m /\
    (Z.of_nat (length radii) = r1 - r0 + 1 /\ forall k, 0 <= k <= r1 - r0 -> nth (Z.to_nat k) radii 0 = r0 + k) /\
    hough (canny sigma m) radii = (cx, cy, r) :: rest /\ x = cx - nc image / 2 /\ y = cy - nr image / 2.
Proof.
  unfold fit_circle, guard.
  set (L := map (fun k => r0 + k) (zrange (r1 + 1 - r0))).
  assert (U : forall l, 0 < r0 < r1 -> Z.of_nat (length l) = r1 - r0 + 1 /\ (forall k, 0 <= k <= r1 - r0 -> nth (Z.to_nat k) l 0 = r0 + k) <-> 0 < r0 < r1 /\ l = L).
  { intros l H. assert (Len : Z.of_nat (length L) = r1 - r0 + 1) by (unfold L; rewrite map_length, length_zrange by lia; lia).
    assert (Nth : forall k, 0 <= k <= r1 - r0 -> nth (Z.to_nat k) L 0 = r0 + k).
    { intros k Hk. unfold L. rewrite (nth_indep _ 0 ((fun k => r0 + k) 0)) by (rewrite map_length; pose proof (length_zrange (r1 + 1 - r0) ltac:(lia)); lia).
      rewrite (map_nth (fun k => r0 + k)). f_equal. unfold zrange.
      rewrite (nth_indep _ 0 (Z.of_nat 0)) by (rewrite map_length, seq_length; lia). rewrite map_nth, seq_nth by lia. lia. }
    split.
    - intros [A B]. split; [exact H|]. apply (nth_ext _ _ 0 0); [lia|]. intros q Hq.
      rewrite <- (Nat2Z.id q). rewrite B, Nth by lia. reflexivity.
    - intros [_ ->]. auto. }
  destruct (Z.ltb_spec 0 r0) as [H0|H0]; [|split; [discriminate|lia]]. cbn [bind].
  destruct (Z.ltb_spec 0 r1) as [H1|H1]; [|split; [discriminate|lia]]. cbn [bind].
  destruct (Rltb 0 sigma) eqn:S; [apply Rltb_iff in S|apply Rltb_false in S; split; [discriminate|intros (_ & ? & _); lra]]. cbn [bind].
  destruct (Z.ltb_spec r0 r1) as [H2|H2]; [|split; [discriminate|lia]]. cbn [bind].
  destruct (ampthresh image 21) as [m|e] eqn:E; cbn [bind].
  2: { split; [discriminate|]. intros (_ & _ & ? & ? & ? & ? & ? & K & _). discriminate. }
  pose proof (ampthresh_ok _ _ _ E) as (lo & hi & Hh & k & _ & _ & _ & _ & _ & _ & _ & M1 & M2 & _).
  split.
  - destruct (hough (canny sigma m) L) as [|[[cx cy] r'] rest] eqn:Q; [discriminate|]. intros K. injection K as <- <- <-.
    split; [lia|]. split; [exact S|]. exists m, L, cx, cy, rest. split; [reflexivity|]. split; [apply U; auto with zarith|].
    split; [exact Q|]. rewrite M1, M2. auto.
  - intros (_ & _ & m' & l & cx & cy & rest & K & Rr & Q & -> & ->). injection K as <-.
    apply U in Rr as [_ ->]; [|lia]. rewrite Q, M1, M2. reflexivity.
Qed.
Lemma fit_circle_radius canny hough image r0 r1 sigma x y r :
  (forall e l cx cy q, In (cx, cy, q) (hough e l) -> In q l) ->
  fit_circle canny hough image r0 r1 sigma = Ok (x, y, r) -> r0 <= r <= r1.
Proof.
  intros H E. unfold fit_circle, guard in E.
  destruct (0 <? r0); [|discriminate]. destruct (0 <? r1); [|discriminate]. destruct (Rltb 0 sigma); [|discriminate].
  destruct (r0 <? r1); [|discriminate]. cbn [bind] in E. destruct (ampthresh image 21) as [m|]; [|discriminate]. cbn [bind] in E.
  destruct (hough _ _) as [|[[cx cy] q] rest] eqn:Q; [discriminate|]. injection E as _ _ <-.
  assert (I : In q (map (fun k => r0 + k) (zrange (r1 + 1 - r0)))) by (apply (H (canny sigma m) _ cx cy q); rewrite Q; left; reflexivity).
  apply in_map_iff in I as (k & <- & K). apply in_zrange in K. lia.
Qed.
Lemma fit_circle_affine canny hough image r0 r1 sigma s o r : (0 < s)%R ->
  (forall b b', aeq b b' -> canny sigma b = canny sigma b') -> fit_circle canny hough image r0 r1 sigma = Ok r ->
  fit_circle canny hough (amap (fun v => s * v + o)%R image) r0 r1 sigma = Ok r.
Proof.
  intros Hs X E. unfold fit_circle, guard in *.
  destruct (0 <? r0); [|discriminate]. destruct (0 <? r1); [|discriminate]. destruct (Rltb 0 sigma); [|discriminate].
  destruct (r0 <? r1); [|discriminate]. cbn [bind] in *. destruct (ampthresh image 21) as [m|] eqn:EM; [|discriminate]. cbn [bind] in E.
  destruct (ampthresh_affine image 21 m s o Hs EM) as (m' & -> & A). cbn [bind]. rewrite (X _ _ A). destruct A as (-> & -> & _). exact E.
Qed.
Lemma fit_circle_err canny hough image r0 r1 sigma :
  (r0 <= 0 \/ r1 <= 0 \/ (sigma <= 0)%R -> fit_circle canny hough image r0 r1 sigma = Err TypeError) /\
  (0 < r1 <= r0 -> (0 < sigma)%R -> fit_circle canny hough image r0 r1 sigma = Err ValueError) /\
  (forall m, 0 < r0 < r1 -> (0 < sigma)%R -> ampthresh image 21 = Ok m -> (forall l, hough (canny sigma m) l = []) ->
     fit_circle canny hough image r0 r1 sigma = Err IndexError).
Proof.
  unfold fit_circle, guard. repeat split.
  - intros H. destruct (Z.ltb_spec 0 r0); [|reflexivity]. destruct (Z.ltb_spec 0 r1); [|reflexivity].
    destruct (Rltb 0 sigma) eqn:S; [apply Rltb_iff in S|reflexivity]. exfalso. intuition (lia || lra).
  - intros H S. destruct (Z.ltb_spec 0 r0); [|lia]. destruct (Z.ltb_spec 0 r1); [|lia]. apply Rltb_iff in S. rewrite S.
    destruct (Z.ltb_spec r0 r1); [lia|]. reflexivity.
  - intros m H S E Q. destruct (Z.ltb_spec 0 r0); [|lia]. destruct (Z.ltb_spec 0 r1); [|lia]. apply Rltb_iff in S. rewrite S.
    destruct (Z.ltb_spec r0 r1); [|lia]. cbn [bind]. rewrite E. cbn [bind]. rewrite Q. reflexivity.
Qed.
