(** Proofs about the DM functions. *)
From Coq Require Import ZArith Bool List Reals Lra Lia Psatz String.
From Flocq Require Import Core.
From Verif.Base Require Import Py Arr Vec Sums Lstsq.
From Verif.Model Require Import PadCrop Fresnel Noll Dm.
From Verif.Spec Require Import MathSpec ZernikeSpec DmSpec.
From Verif.Proofs Require Import PadCropP FresnelP NollP ZernP.
Import ListNotations.
Open Scope Z_scope.

(** ** Conversions *)
Lemma dmh_volts_dmh g h lam v h' : (forall i j, in_arr g i j -> at2 g i j <> 0%R) ->
  dmh_to_volts g h lam = Ok v -> volts_to_dmh g v lam = Ok h' -> aeq h' h.
Proof.
  intros Hg H1 H2. unfold dmh_to_volts in H1. apply guard_ok in H1 as [P H1].
  apply guard_ok in H1 as [S H1]. injection H1 as <-.
  unfold volts_to_dmh in H2. apply guard_ok in H2 as [_ H2].
  apply guard_ok in H2 as [S2 H2]. injection H2 as <-.
  apply pos_real_iff in P. apply same_shape_iff in S as [S1 S3].
  split; [auto|split; [auto|]]. intros i j [Hi Hj]. cbn in *.
  field. pose proof PI_RGT_0. repeat split; try lra. apply Hg. split; lia.
Qed.
Lemma volts_dmh_volts g v lam h v' : (forall i j, in_arr g i j -> at2 g i j <> 0%R) ->
  volts_to_dmh g v lam = Ok h -> dmh_to_volts g h lam = Ok v' -> aeq v' v.
Proof.
  intros Hg H1 H2. unfold volts_to_dmh in H1. apply guard_ok in H1 as [P H1].
  apply guard_ok in H1 as [S H1]. injection H1 as <-.
  unfold dmh_to_volts in H2. apply guard_ok in H2 as [_ H2].
  apply guard_ok in H2 as [S2 H2]. injection H2 as <-.
  apply pos_real_iff in P. apply same_shape_iff in S as [S1 S3].
  split; [auto|split; [auto|]]. intros i j [Hi Hj]. cbn in *.
  field. pose proof PI_RGT_0. repeat split; try lra. apply Hg. split; lia.
Qed.
Lemma volts_scale g v lam h : volts_to_dmh g v lam = Ok h ->
  nr h = nr v /\ nc h = nc v /\ forall i j, in_arr v i j ->
  (at2 h i j * lam = 2 * PI * (at2 g i j * at2 v i j))%R.
Proof.
  intros H1. unfold volts_to_dmh in H1. apply guard_ok in H1 as [P H1].
  apply guard_ok in H1 as [S H1]. injection H1 as <-. apply pos_real_iff in P.
  repeat split. intros i j _. cbn. field. lra.
Qed.
Lemma conversions_defined g h lam :
  (is_ok (dmh_to_volts g h lam) <-> (0 < lam)%R /\ nr h = nr g /\ nc h = nc g) /\
  (is_ok (volts_to_dmh g h lam) <-> (0 < lam)%R /\ nr h = nr g /\ nc h = nc g) /\
  (forall e, dmh_to_volts g h lam = Err e -> e = TypeError) /\
  (forall e, volts_to_dmh g h lam = Err e -> e = TypeError).
Proof.
  unfold dmh_to_volts, volts_to_dmh.
  rewrite <- pos_real_iff, <- same_shape_iff.
  unfold is_ok. destruct (pos_real lam), (same_shape h g); cbn;
    (split; [|split; [|split]]); try (intros e [=]; congruence);
    (split; [intros [x [=]]; auto | intros [? ?]; try discriminate; eauto]).
Qed.

(** ** Sum lemmas *)
Lemma rsum2_pick n m (f : Z -> Z -> R) i0 j0 :
  rsum2 (fun p q => if (p =? i0) && (q =? j0) then f p q else 0)%R n m
  = (if (0 <=? i0) && (i0 <? n) && (0 <=? j0) && (j0 <? m) then f i0 j0 else 0)%R.
Proof.
  destruct ((0 <=? i0) && (i0 <? n) && (0 <=? j0) && (j0 <? m)) eqn:E.
  - rewrite !andb_true_iff, !Z.leb_le, !Z.ltb_lt in E.
    rewrite <- (rsum2_delta (fun p q => f p q) n m i0 j0) by lia.
    apply rsum2_ext. intros p q Hp Hq. destruct (Z.eqb_spec p i0), (Z.eqb_spec q j0); reflexivity.
  - apply rsum2_all_zero. intros p q Hp Hq.
    destruct (Z.eqb_spec p i0), (Z.eqb_spec q j0); cbn; auto. subst. exfalso.
    rewrite (proj2 (Z.leb_le 0 i0)), (proj2 (Z.ltb_lt i0 n)), (proj2 (Z.leb_le 0 j0)),
      (proj2 (Z.ltb_lt j0 m)) in E by lia. discriminate.
Qed.
Lemma rsum2_swap4 (f : Z -> Z -> Z -> Z -> R) n m n' m' :
  rsum2 (fun p q => rsum2 (fun a b => f p q a b) n' m') n m
  = rsum2 (fun a b => rsum2 (fun p q => f p q a b) n m) n' m'.
Proof.
  unfold rsum2.
  transitivity (rsum (fun i => rsum (fun i0 => rsum (fun j => rsum (fun j0 => f i j i0 j0) m') m) n') n).
  { apply rsum_ext. intros i _. apply (rsum_swap (fun j i0 => rsum (fun j0 => f i j i0 j0) m')). }
  rewrite (rsum_swap (fun i i0 => rsum (fun j => rsum (fun j0 => f i j i0 j0) m') m)).
  apply rsum_ext. intros i0 _.
  transitivity (rsum (fun i => rsum (fun j0 => rsum (fun j => f i j i0 j0) m) m') n).
  { apply rsum_ext. intros i _. apply (rsum_swap (fun j j0 => f i j i0 j0)). }
  apply (rsum_swap (fun i j0 => rsum (fun j => f i j i0 j0) m)).
Qed.
Lemma rsum_flat (f : Z -> Z -> R) n m : 0 <= n -> 0 < m ->
  rsum (fun p => f (p / m)%Z (p mod m)%Z) (n * m)%Z = rsum2 f n m.
Proof.
  intros Hn Hm. revert n Hn. apply natlike_ind.
  - rewrite rsum_0 by lia. unfold rsum2. rewrite rsum_0 by lia. reflexivity.
  - intros n Hn IH. replace (Z.succ n * m) with (n * m + m) by ring.
    rewrite rsum_split by nia. rewrite IH. unfold rsum2.
    replace (Z.succ n) with (n + 1) by lia. rewrite rsum_succ by lia. f_equal.
    apply rsum_ext. intros k Hk.
    rewrite Z.add_comm, Z.div_add, Z.mod_add by lia. rewrite Z.div_small, Z.mod_small by lia.
    f_equal; try lia.
Qed.

(** ** dmhtoph *)
Lemma stride_len_poke nact p : 0 < nact -> 0 < p -> stride_len ((nact - 1) * p + 1) 0 p = nact.
Proof.
  intros. unfold stride_len. replace ((nact - 1) * p + 1 - 0 + p - 1) with (nact * p) by ring.
  rewrite Z.div_mul by lia. lia.
Qed.
Lemma poke_ok nact p dmin : 0 < nact -> 0 < p -> nr dmin = nact -> nc dmin = nact ->
  exists a, poke_array nact p dmin = Ok a /\ nr a = (nact - 1) * p + 1 /\ nc a = (nact - 1) * p + 1 /\
  (forall i j, 0 <= i < nact -> 0 <= j < nact -> at2 a (i * p) (j * p) = at2 dmin i j) /\
  (forall u v, in_arr a u v -> (~ exists i j, u = i * p /\ v = j * p) -> at2 a u v = 0%R).
Proof.
  intros Hn Hp Hr Hc. unfold poke_array, set_strided. cbn [nr nc afull].
  rewrite !stride_len_poke, Hr, Hc by auto. unfold bc_ok. rewrite Z.eqb_refl. cbn.
  eexists. split; [reflexivity|]. cbn. split; [auto|split; [auto|]]. split.
  - intros i j Hi Hj.
    rewrite (proj2 (on_stride_spec 0 p (i * p) Hp)) by (exists i; lia).
    rewrite (proj2 (on_stride_spec 0 p (j * p) Hp)) by (exists j; lia).
    cbn. rewrite !Z.sub_0_r, !Z.div_mul by lia. unfold bc_idx.
    destruct (Z.eqb_spec nact 1); auto. f_equal; lia.
  - intros u v _ H.
    destruct (on_stride 0 p u) eqn:E1; cbn; auto. destruct (on_stride 0 p v) eqn:E2; cbn; auto.
    apply on_stride_spec in E1 as (k & _ & ->), E2 as (l & _ & ->); auto.
    exfalso. apply H. exists k, l. lia.
Qed.
Lemma poke_sum nact p dmin a u v : 0 < nact -> 0 < p -> nr dmin = nact -> nc dmin = nact ->
  poke_array nact p dmin = Ok a ->
  at0 a u v = rsum2 (fun i j => if (i * p =? u) && (j * p =? v) then at2 dmin i j else 0%R) nact nact.
Proof.
  intros Hn Hp Hr Hc E. destruct (poke_ok nact p dmin Hn Hp Hr Hc) as (a' & E' & R & C & V & O).
  rewrite E in E'. injection E' as <-.
  destruct (in_arrb a u v) eqn:B.
  - rewrite at0_in by (apply in_arrb_spec; auto). apply in_arrb_spec in B. pose proof B as [B1 B2].
    destruct (Z.eq_dec (u mod p) 0) as [E1|E1]; [destruct (Z.eq_dec (v mod p) 0) as [E2|E2]|].
    + apply Z.mod_divide in E1 as [i ->]; [|lia]. apply Z.mod_divide in E2 as [j ->]; [|lia].
      rewrite R, C in *. rewrite V by nia.
      transitivity (rsum2 (fun p0 q => if (p0 =? i) && (q =? j) then at2 dmin p0 q else 0%R) nact nact).
      * rewrite rsum2_pick.
        rewrite (proj2 (Z.leb_le 0 i)), (proj2 (Z.ltb_lt i nact)), (proj2 (Z.leb_le 0 j)),
          (proj2 (Z.ltb_lt j nact)) by nia. reflexivity.
      * apply rsum2_ext. intros k l _ _.
        destruct (Z.eqb_spec k i), (Z.eqb_spec (k * p) (i * p)); subst; try lia; try nia; cbn; auto.
        destruct (Z.eqb_spec l j), (Z.eqb_spec (l * p) (j * p)); subst; try lia; try nia; auto.
    + rewrite O; auto.
      2:{ intros (i & j & -> & ->). apply E2. apply Z.mod_mul. lia. }
      symmetry. apply rsum2_all_zero. intros k l _ _.
      destruct (Z.eqb_spec (l * p) v) as [<-|]; [exfalso; apply E2, Z.mod_mul; lia|].
      rewrite andb_false_r. reflexivity.
    + rewrite O; auto.
      2:{ intros (i & j & -> & ->). apply E1. apply Z.mod_mul. lia. }
      symmetry. apply rsum2_all_zero. intros k l _ _.
      destruct (Z.eqb_spec (k * p) u) as [<-|]; [exfalso; apply E1, Z.mod_mul; lia|]. reflexivity.
  - apply in_arrb_false in B. rewrite at0_out by auto. symmetry. apply rsum2_all_zero. intros k l Hk Hl.
    destruct (Z.eqb_spec (k * p) u) as [<-|]; [|reflexivity].
    destruct (Z.eqb_spec (l * p) v) as [<-|]; [|reflexivity].
    exfalso. apply B. unfold in_arr. rewrite R, C. nia.
Qed.
Lemma at0_expand k i j :
  at0 k i j = (if ((0 <=? i) && (i <? nr k) && (0 <=? j) && (j <? nc k)) then at2 k i j else 0)%R.
Proof.
  unfold at0, in_arrb.
  destruct (0 <=? i), (i <? nr k), (0 <=? j), (j <? nc k); reflexivity.
Qed.
Lemma convolve_superposition nact p dmin inf a i j : 0 < nact -> 0 < p -> nr dmin = nact -> nc dmin = nact ->
  poke_array nact p dmin = Ok a ->
  at2 (convolve_full a inf) i j = superposition nact p dmin inf i j.
Proof.
  intros Hn Hp Hr Hc E. cbn.
  transitivity (rsum2 (fun p0 q => rsum2 (fun k l =>
     (at2 dmin k l * (if (p0 =? i - k * p)%Z && (q =? j - l * p)%Z then at2 inf p0 q else 0))%R) nact nact)
     (nr inf) (nc inf)).
  { apply rsum2_ext. intros p0 q _ _. rewrite (poke_sum nact p dmin a) by auto.
    rewrite <- rsum2_scal. apply rsum2_ext. intros k l _ _.
    replace (p0 =? i - k * p) with (k * p =? i - p0)
      by (destruct (Z.eqb_spec (k * p) (i - p0)), (Z.eqb_spec p0 (i - k * p)); lia).
    replace (q =? j - l * p) with (l * p =? j - q)
      by (destruct (Z.eqb_spec (l * p) (j - q)), (Z.eqb_spec q (j - l * p)); lia).
    destruct ((k * p =? i - p0) && (l * p =? j - q)); ring. }
  rewrite rsum2_swap4. unfold superposition. apply rsum2_ext. intros k l _ _.
  rewrite rsum2_scal. f_equal. rewrite rsum2_pick, at0_expand.
  set (h := (nr inf - 1) / 2).
  replace (h + (i - (k * p + h))) with (i - k * p) by ring.
  replace (h + (j - (l * p + h))) with (j - l * p) by ring. reflexivity.
Qed.

Definition design_size (nact N ppd : Z) : Z := (nact - 1) * ppd + N.
Definition carr (nact ppd : Z) (dmin inf : arr R) : arr R :=
  match poke_array nact ppd dmin with Ok a => convolve_full a inf | Err _ => dmin end.
Lemma dmhtoph_ok ops nrow ncol dmin nact inf ppd cx cy dx dy th fx out : wf inf ->
  dmhtoph ops nrow ncol dmin nact inf ppd cx cy dx dy th fx = Ok out ->
  dm_args nrow ncol dmin nact inf ppd cx cy /\ 4 <= design_size nact (nr inf) ppd /\
  nr (carr nact ppd dmin inf) = design_size nact (nr inf) ppd /\
  nc (carr nact ppd dmin inf) = design_size nact (nr inf) ppd /\
  (forall i j, at2 (carr nact ppd dmin inf) i j = superposition nact ppd dmin inf i j) /\
  pad_crop (sp_shift ops (sp_rotate ops
     (let s0 := resampled ops (design_size nact (nr inf) ppd) ppd (nxyres nact (nr inf) ppd cx cy) cx cy
                  (carr nact ppd dmin inf) in if fx then fliplr s0 else s0) (- th)) dy dx) [nrow; ncol] 0%R = Ok out.
Proof.
  unfold dmhtoph. intros [W _] H.
  apply guard_ok in H as [G1 H]. apply guard_ok in H as [G2 H]. apply guard_ok in H as [G3 H].
  apply guard_ok in H as [G4 H]. apply guard_ok in H as [G5 H]. apply guard_ok in H as [G6 H].
  apply guard_ok in H as [G7 H]. apply guard_ok in H as [G8 H]. apply guard_ok in H as [G9 H].
  apply guard_ok in H as [G10 H]. apply guard_ok in H as [G11 H].
  rewrite Z.ltb_lt in G1, G2, G3, G4. rewrite pos_real_iff in G5, G6.
  rewrite andb_true_iff, !Z.ltb_lt in G7. rewrite andb_true_iff, !Z.eqb_eq in G8.
  rewrite Z.eqb_eq in G10, G11.
  destruct (Rlt_dec (IZR ppd) cx) as [?|G9a]; [discriminate|].
  destruct (Rlt_dec (IZR ppd) cy) as [?|G9b]; [discriminate|].
  destruct (poke_ok nact ppd dmin) as (a & E & R & C & _); try tauto.
  unfold carr. rewrite E in *. cbn [bind] in H.
  assert (Hn : nr (convolve_full a inf) = design_size nact (nr inf) ppd)
    by (cbn; rewrite R; unfold design_size; ring).
  rewrite Hn in H.
  apply guard_ok in H as [G12 H]. rewrite Z.leb_le in G12.
  split; [|split; [|split; [|split; [|split]]]]; auto.
  - unfold dm_args. repeat split; try tauto; try lra.
  - cbn. rewrite C, <- G10. unfold design_size. ring.
  - intros i j. apply convolve_superposition; tauto.
Qed.
Lemma dmhtoph_defined ops nrow ncol dmin nact inf ppd cx cy dx dy th fx :
  shape_preserving ops -> dm_args nrow ncol dmin nact inf ppd cx cy -> 4 <= design_size nact (nr inf) ppd ->
  exists out, dmhtoph ops nrow ncol dmin nact inf ppd cx cy dx dy th fx = Ok out.
Proof.
  intros [Sr Ss] (G1 & G2 & G3 & G4 & G5 & G6 & G7 & G8 & G9 & G10 & G11 & G13) G12.
  unfold dmhtoph.
  rewrite guard_true by (apply Z.ltb_lt; auto). rewrite guard_true by (apply Z.ltb_lt; auto).
  rewrite guard_true by (apply Z.ltb_lt; auto). rewrite guard_true by (apply Z.ltb_lt; auto).
  rewrite guard_true by (apply pos_real_iff; lra). rewrite guard_true by (apply pos_real_iff; lra).
  rewrite guard_true by (rewrite andb_true_iff, !Z.ltb_lt; lia).
  rewrite guard_true by (rewrite andb_true_iff, !Z.eqb_eq; lia).
  destruct (Rlt_dec (IZR ppd) cx) as [?|_]; [lra|].
  destruct (Rlt_dec (IZR ppd) cy) as [?|_]; [lra|].
  rewrite guard_true by auto.
  rewrite guard_true by (apply Z.eqb_eq; auto). rewrite guard_true by (apply Z.eqb_eq; auto).
  destruct (poke_ok nact ppd dmin) as (a & E & R & C & _); auto.
  rewrite E. cbn [bind].
  assert (Hn : nr (convolve_full a inf) = design_size nact (nr inf) ppd)
    by (cbn; rewrite R; unfold design_size; ring).
  rewrite Hn, guard_true by (apply Z.leb_le; auto).
  match goal with |- exists out, pad_crop ?a _ _ = _ =>
    destruct (pad_crop_ok a nrow ncol 0%R) as (o & Eo & _); auto end.
  2: exists o; auto.
  assert (0 <= nxyres nact (nr inf) ppd cx cy).
  { unfold nxyres.
    assert (0 <= Zceil (sqrt 2 * (IZR nact + IZR (nr inf) / IZR ppd) * Rmax cx cy)%R).
    { apply le_IZR. apply Rle_trans with (sqrt 2 * (IZR nact + IZR (nr inf) / IZR ppd) * Rmax cx cy)%R;
        [|apply Zceil_ub].
      pose proof (sqrt_pos 2). pose proof (Rmax_l cx cy).
      assert (0 < IZR nact)%R by (apply IZR_lt; auto). assert (0 < IZR ppd)%R by (apply IZR_lt; auto).
      assert (0 <= IZR (nr inf))%R.
      { apply IZR_le. auto. }
      assert (0 <= IZR (nr inf) / IZR ppd)%R by (apply Rmult_le_pos; [auto|left; apply Rinv_0_lt_compat; auto]).
      apply Rmult_le_pos; [apply Rmult_le_pos|]; lra. }
    destruct (_ mod 2 =? 0); lia. }
  split; rewrite ?(proj1 (Ss _ _ _)), ?(proj2 (Ss _ _ _)), ?(proj1 (Sr _ _)), ?(proj2 (Sr _ _)); destruct fx; cbn; auto.
Qed.

Lemma nxyres_odd nact N ppd cx cy : nxyres nact N ppd cx cy mod 2 = 1.
Proof.
  unfold nxyres. set (n := Zceil _). destruct (Z.eqb_spec (n mod 2) 0) as [E|E].
  - rewrite Z.add_mod, E by lia. reflexivity.
  - pose proof (Z.mod_pos_bound n 2 ltac:(lia)). lia.
Qed.
Lemma nxyres_ge nact N ppd cx cy : (sqrt 2 * (IZR nact + IZR N / IZR ppd) * Rmax cx cy <= IZR (nxyres nact N ppd cx cy))%R.
Proof.
  unfold nxyres. set (x := (sqrt 2 * _ * _)%R). pose proof (Zceil_ub x).
  destruct (_ mod 2 =? 0); [|auto]. rewrite plus_IZR. lra.
Qed.
Lemma sqrt2_ge1 : (1 <= sqrt 2)%R.
Proof. rewrite <- sqrt_1 at 1. apply sqrt_le_1_alt. lra. Qed.

(** Every pixel of the sampled field lies in the resampled array. *)
Lemma pixel_inside nact N ppd cx cy s (c : Z) : 0 < nact -> 0 < ppd -> 0 <= N -> (0 < s)%R ->
  (s = cx \/ s = cy) ->
  (node (design_size nact N ppd) ppd 0 <= IZR c / s <= node (design_size nact N ppd) ppd (design_size nact N ppd - 1))%R ->
  let nx := nxyres nact N ppd cx cy in 0 <= c + nx / 2 < nx.
Proof.
  intros Hn Hp HN Hs Hsc [L U] nx.
  pose proof (nxyres_odd nact N ppd cx cy) as O. pose proof (nxyres_ge nact N ppd cx cy) as G. fold nx in O, G.
  assert (Ip : (0 < IZR ppd)%R) by (apply IZR_lt; auto).
  assert (In : (0 < IZR nact)%R) by (apply IZR_lt; auto).
  assert (IN : (0 <= IZR N)%R) by (apply IZR_le; auto).
  unfold node, design_size in L, U. rewrite ?minus_IZR, ?plus_IZR, ?mult_IZR, ?minus_IZR in L, U.
  rewrite ?plus_IZR, ?mult_IZR, ?minus_IZR in U.
  assert (Hm : (s <= Rmax cx cy)%R) by (destruct Hsc; subst; [apply Rmax_l|apply Rmax_r]).
  set (t := (IZR nact + IZR N / IZR ppd)%R) in *.
  assert (Ht : (0 < t)%R).
  { unfold t. assert (0 <= IZR N / IZR ppd)%R by (apply Rmult_le_pos; [auto|left; apply Rinv_0_lt_compat; auto]). lra. }
  assert (B : (Rabs (IZR c / s) < t / 2)%R).
  { assert (K : (((IZR nact - 1) * IZR ppd + IZR N - 1) / 2 / IZR ppd < t / 2)%R).
    { unfold t. apply Rmult_lt_reg_r with (IZR ppd); auto.
      replace (((IZR nact - 1) * IZR ppd + IZR N - 1) / 2 / IZR ppd * IZR ppd)%R
        with (((IZR nact - 1) * IZR ppd + IZR N - 1) / 2)%R by (field; lra).
      replace ((IZR nact + IZR N / IZR ppd) / 2 * IZR ppd)%R with ((IZR nact * IZR ppd + IZR N) / 2)%R by (field; lra).
      lra. }
    apply Rabs_lt. split.
    - apply Rlt_le_trans with (2 := L).
      apply Rlt_le_trans with (- (((IZR nact - 1) * IZR ppd + IZR N - 1) / 2 / IZR ppd))%R; [lra|].
      right. field. lra.
    - apply Rle_lt_trans with (1 := U). apply Rle_lt_trans with (2 := K). right. field. lra. }
  assert (B2 : (Rabs (IZR c) < IZR nx / 2)%R).
  { replace (IZR c) with (IZR c / s * s)%R by (field; lra).
    rewrite Rabs_mult, (Rabs_pos_eq s) by lra.
    apply Rlt_le_trans with (t / 2 * s)%R; [apply Rmult_lt_compat_r; auto|].
    pose proof sqrt2_ge1.
    assert (t * s <= sqrt 2 * t * Rmax cx cy)%R.
    { replace (t * s)%R with (1 * t * s)%R by ring.
      apply Rmult_le_compat; try nra. }
    lra. }
  rewrite <- abs_IZR in B2.
  assert (2 * Z.abs c < nx). { apply lt_IZR. rewrite mult_IZR. lra. }
  assert (nx = 2 * (nx / 2) + 1). { pose proof (Z.div_mod nx 2 ltac:(lia)). lia. }
  lia.
Qed.

Definition sgn_col (fx : bool) (c : Z) : Z := if fx then - c else c.
Lemma resampled_pixel ops nact N ppd cx cy (a : arr R) (fx : bool) (i j nrow ncol : Z) :
  let nx := nxyres nact N ppd cx cy in
  let s0 := resampled ops (design_size nact N ppd) ppd nx cx cy a in
  let s := if fx then fliplr s0 else s0 in
  0 < nact -> 0 < ppd -> 0 <= N -> (0 < cx)%R -> (0 < cy)%R ->
  let X := (IZR (sgn_col fx (j - ncol / 2)) / cx)%R in
  let Y := (IZR (i - nrow / 2) / cy)%R in
  let hw := ((IZR (design_size nact N ppd) - 1) / 2 / IZR ppd)%R in
  (if in_arrb s (i - nrow / 2 + nr s / 2) (j - ncol / 2 + nc s / 2)
   then at2 s (i - nrow / 2 + nr s / 2) (j - ncol / 2 + nc s / 2) else 0%R)
  = if Rle_dec (Rabs X) hw then if Rle_dec (Rabs Y) hw
    then sp_interp ops (design_size nact N ppd) ppd a Y X else 0%R else 0%R.
Proof.
  intros nx s0 s Hn Hp HN Hcx Hcy X Y hw.
  assert (Ip : (0 < IZR ppd)%R) by (apply IZR_lt; auto).
  assert (Hlo : node (design_size nact N ppd) ppd 0 = (- hw)%R) by (unfold node, hw; field; lra).
  assert (Hhi : node (design_size nact N ppd) ppd (design_size nact N ppd - 1) = hw)
    by (unfold node, hw; rewrite minus_IZR; field; lra).
  pose proof (nxyres_odd nact N ppd cx cy) as O. fold nx in O.
  assert (Nx : nx = 2 * (nx / 2) + 1) by (pose proof (Z.div_mod nx 2 ltac:(lia)); lia).
  assert (Sr : nr s = nx) by (unfold s; destruct fx; reflexivity).
  assert (Sc : nc s = nx) by (unfold s; destruct fx; reflexivity).
  rewrite Sr, Sc.
  assert (V : at2 s (i - nrow / 2 + nx / 2) (j - ncol / 2 + nx / 2)
     = at2 s0 (i - nrow / 2 + nx / 2) (sgn_col fx (j - ncol / 2) + nx / 2)).
  { unfold s, sgn_col. destruct fx; [|reflexivity]. unfold fliplr. cbn [at2]. f_equal.
    change (nc s0) with nx. lia. }
  rewrite V. unfold s0, resampled. cbn [at2]. rewrite Hlo, Hhi.
  rewrite !Z.add_simpl_r. fold X Y.
  assert (PX := pixel_inside nact N ppd cx cy cx (sgn_col fx (j - ncol / 2)) Hn Hp HN Hcx (or_introl eq_refl)).
  assert (PY := pixel_inside nact N ppd cx cy cy (i - nrow / 2) Hn Hp HN Hcy (or_intror eq_refl)).
  rewrite Hlo, Hhi in PX, PY. fold X in PX. fold Y in PY. fold nx in PX, PY. cbn zeta in PX, PY.
  destruct (Rle_dec (Rabs X) hw) as [HX|HX].
  - apply Rabs_le_inv in HX. specialize (PX HX).
    destruct (Rle_dec (- hw) X) as [_|]; [|lra]. destruct (Rle_dec X hw) as [_|]; [|lra].
    destruct (Rle_dec (Rabs Y) hw) as [HY|HY].
    + apply Rabs_le_inv in HY. specialize (PY HY).
      destruct (Rle_dec (- hw) Y) as [_|]; [|lra]. destruct (Rle_dec Y hw) as [_|]; [|lra].
      replace (in_arrb s _ _) with true; [reflexivity|]. symmetry. apply in_arrb_spec.
      unfold in_arr. rewrite Sr, Sc. unfold sgn_col in PX. destruct fx; lia.
    + destruct (in_arrb s _ _); auto.
      destruct (Rle_dec (- hw) Y); auto. destruct (Rle_dec Y hw); auto.
      exfalso. apply HY. apply Rabs_le. auto.
  - destruct (in_arrb s _ _); auto.
    destruct (Rle_dec (- hw) X); auto. destruct (Rle_dec X hw); auto.
    exfalso. apply HX. apply Rabs_le. auto.
Qed.

(** Without rotation or shift, each camera pixel samples the spline at its actuator coordinates. *)
Lemma dmhtoph_sampling ops nrow ncol dmin nact inf ppd cx cy fx out : wf inf -> still ops ->
  dmhtoph ops nrow ncol dmin nact inf ppd cx cy 0 0 0 fx = Ok out ->
  let n := (nact - 1) * ppd + nr inf in
  let hw := ((IZR n - 1) / 2 / IZR ppd)%R in
  exists design, nr design = n /\ nc design = n /\
    (forall i j, at2 design i j = superposition nact ppd dmin inf i j) /\
    nr out = nrow /\ nc out = ncol /\
    forall i j, in_arr out i j ->
      let X := (IZR (if fx then - (j - ncol / 2) else j - ncol / 2) / cx)%R in
      let Y := (IZR (i - nrow / 2) / cy)%R in
      ((Rabs X <= hw /\ Rabs Y <= hw)%R -> at2 out i j = sp_interp ops n ppd design Y X) /\
      (~ (Rabs X <= hw /\ Rabs Y <= hw)%R -> at2 out i j = 0%R).
Proof.
  intros W [Sr Ss] H n hw. apply dmhtoph_ok in H as (A & G & Cr & Cc & Cv & H); auto.
  destruct A as (G1 & G2 & G3 & G4 & G5 & G6 & G7 & G8 & G9 & G10 & G11 & G13).
  exists (carr nact ppd dmin inf). split; [auto|split; [auto|split; [auto|]]].
  cbn zeta in H. rewrite Ropp_0 in H.
  set (s := if fx then _ else _) in H.
  assert (E : aeq (sp_shift ops (sp_rotate ops s 0) 0 0) s) by (eapply aeq_trans; [apply Ss|apply Sr]).
  set (s' := sp_shift ops _ 0 0) in *. destruct E as (E1 & E2 & E3).
  assert (Ws : wf s).
  { pose proof (pixel_inside nact (nr inf) ppd cx cy cx 0 G3 G4 G13 ltac:(lra) (or_introl eq_refl)) as P.
    assert (Z : 0 <= nxyres nact (nr inf) ppd cx cy).
    { apply le_IZR. eapply Rle_trans; [|apply nxyres_ge].
      pose proof sqrt2_ge1. pose proof (Rmax_l cx cy).
      assert (0 < IZR nact)%R by (apply IZR_lt; auto). assert (0 < IZR ppd)%R by (apply IZR_lt; auto).
      assert (0 <= IZR (nr inf))%R by (apply IZR_le; auto).
      assert (0 <= IZR (nr inf) / IZR ppd)%R by (apply Rmult_le_pos; [auto|left; apply Rinv_0_lt_compat; auto]).
      apply Rmult_le_pos; [apply Rmult_le_pos|]; lra. }
    unfold s. destruct fx; split; cbn; auto. }
  assert (Ws' : wf s') by (unfold wf; rewrite E1, E2; auto).
  destruct (pad_crop_ok s' nrow ncol 0%R Ws' G1 G2) as (o & Eo & R & C & V).
  rewrite H in Eo. injection Eo as <-. split; [auto|split; [auto|]].
  intros i j [Hi Hj] X Y. rewrite R in Hi. rewrite C in Hj. specialize (V i j Hi Hj).
  rewrite E1, E2 in V.
  assert (V' : at2 out i j = if in_arrb s (i - nrow / 2 + nr s / 2) (j - ncol / 2 + nc s / 2)
     then at2 s (i - nrow / 2 + nr s / 2) (j - ncol / 2 + nc s / 2) else 0%R).
  { rewrite V. replace (in_arrb s') with (in_arrb s) by (unfold in_arrb; rewrite E1, E2; reflexivity).
    destruct (in_arrb s _ _) eqn:B; auto. apply in_arrb_spec in B. apply E3.
    unfold in_arr. rewrite E1, E2. apply B. }
  unfold s in V'. rewrite resampled_pixel in V' by (auto; lra).
  change (sgn_col fx (j - ncol / 2)) with (if fx then - (j - ncol / 2) else j - ncol / 2) in V'.
  fold n in V'. change (design_size nact (nr inf) ppd) with n in V'. fold X Y hw in V'.
  split; intros HH; rewrite V'.
  - destruct (Rle_dec (Rabs X) hw); [|tauto]. destruct (Rle_dec (Rabs Y) hw); [auto|tauto].
  - destruct (Rle_dec (Rabs X) hw); auto. destruct (Rle_dec (Rabs Y) hw); auto. tauto.
Qed.

Lemma superposition_outside nact ppd dmin inf i j : 0 < nact -> 0 < ppd -> nr inf = nc inf ->
  let n := (nact - 1) * ppd + nr inf in
  ~ (0 <= i < n /\ 0 <= j < n) -> superposition nact ppd dmin inf i j = 0%R.
Proof.
  intros Hn Hp Hs n H. unfold superposition. apply rsum2_all_zero. intros a b Ha Hb.
  rewrite at0_out; [ring|]. unfold in_arr. intros [B1 B2]. apply H. unfold n. split; nia.
Qed.

(** On the design grid. *)
Lemma dmhtoph_design ops nrow ncol dmin nact inf ppd fx out : wf inf -> still ops -> interpolates ops ->
  Z.Even ((nact - 1) * ppd) ->
  dmhtoph ops nrow ncol dmin nact inf ppd (IZR ppd) (IZR ppd) 0 0 0 fx = Ok out ->
  nr out = nrow /\ nc out = ncol /\
  forall i j, in_arr out i j ->
    let m := ((nact - 1) * ppd + nr inf - 1) / 2 in
    at2 out i j = superposition nact ppd dmin inf (m + (i - nrow / 2))
                    (m + (if fx then - (j - ncol / 2) else j - ncol / 2)).
Proof.
  intros W St Ip Ev H. pose proof H as H0.
  apply dmhtoph_ok in H0 as (A & _); auto.
  destruct A as (G1 & G2 & G3 & G4 & _ & _ & G7 & G8 & G9 & G10 & G11 & G13).
  apply dmhtoph_sampling in H as (d & D1 & D2 & D3 & R & C & V); auto.
  split; [auto|split; [auto|]]. intros i j B m. specialize (V i j B). cbn zeta in V.
  set (n := (nact - 1) * ppd + nr inf) in *.
  set (c := if fx then _ else _) in *. set (r := i - nrow / 2) in *.
  assert (Ip' : (0 < IZR ppd)%R) by (apply IZR_lt; auto).
  assert (Hm : n = 2 * m + 1).
  { unfold m, n in *. destruct Ev as [e Ev]. rewrite Ev.
    pose proof (Z.div_mod (nr inf) 2 ltac:(lia)).
    replace (2 * e + nr inf - 1) with ((e + nr inf / 2) * 2) by lia.
    rewrite Z.div_mul by lia. lia. }
  assert (Hhw : ((IZR n - 1) / 2 / IZR ppd = IZR m / IZR ppd)%R)
    by (rewrite Hm, plus_IZR, mult_IZR; field; lra).
  rewrite Hhw in V.
  assert (Q : forall x : Z, (Rabs (IZR x / IZR ppd) <= IZR m / IZR ppd)%R <-> Z.abs x <= m).
  { intros x. unfold Rdiv. rewrite Rabs_mult, (Rabs_pos_eq (/ IZR ppd)) by (left; apply Rinv_0_lt_compat; auto).
    rewrite <- abs_IZR. split; intros HH.
    - apply le_IZR. apply Rmult_le_reg_r with (/ IZR ppd)%R; [apply Rinv_0_lt_compat|]; auto.
    - apply Rmult_le_compat_r; [left; apply Rinv_0_lt_compat; auto|]. apply IZR_le; auto. }
  rewrite !Q in V. destruct V as [V1 V2].
  destruct (Z_le_dec (Z.abs c) m) as [Hc|Hc]; [destruct (Z_le_dec (Z.abs r) m) as [Hr|Hr]|].
  - rewrite V1 by auto. rewrite <- D3.
    rewrite <- (Ip n ppd d (m + r) (m + c)) by (auto; lia).
    f_equal; rewrite plus_IZR, Hm, plus_IZR, mult_IZR; field; lra.
  - rewrite V2 by tauto. symmetry. apply superposition_outside; auto. fold n. lia.
  - rewrite V2 by tauto. symmetry. apply superposition_outside; auto. fold n. lia.
Qed.

(** Linearity. *)
Lemma superposition_lin nact ppd x y a b d inf i j : nr d = nact -> nc d = nact -> lin_rel x y a b d ->
  superposition nact ppd d inf i j = (x * superposition nact ppd a inf i j + y * superposition nact ppd b inf i j)%R.
Proof.
  intros E1 E2 (R1 & R2 & R3 & R4 & V). unfold superposition. rewrite <- !rsum2_scal, <- rsum2_add.
  apply rsum2_ext. intros p q Hp Hq. rewrite V by (split; lia). ring.
Qed.
Lemma dmhtoph_linear ops nrow ncol a b d x y nact inf ppd cx cy dx dy th fx oa ob od :
  wf inf -> linear_ops ops -> lin_rel x y a b d ->
  dmhtoph ops nrow ncol a nact inf ppd cx cy dx dy th fx = Ok oa ->
  dmhtoph ops nrow ncol b nact inf ppd cx cy dx dy th fx = Ok ob ->
  dmhtoph ops nrow ncol d nact inf ppd cx cy dx dy th fx = Ok od -> lin_rel x y oa ob od.
Proof.
  intros W (Li & Lr & Ls) L Ha Hb Hd.
  apply dmhtoph_ok in Ha as (A & _ & Ra & Ca & Va & Pa); auto.
  apply dmhtoph_ok in Hb as (_ & _ & Rb & Cb & Vb & Pb); auto.
  apply dmhtoph_ok in Hd as (D & G & Rd & Cd & Vd & Pd); auto.
  destruct D as (G1 & G2 & G3 & G4 & G5 & G6 & G7 & G8 & G9 & G10 & G11 & G13).
  set (N := design_size nact (nr inf) ppd) in *.
  assert (Lc : lin_rel x y (carr nact ppd a inf) (carr nact ppd b inf) (carr nact ppd d inf)).
  { unfold lin_rel. rewrite Ra, Ca, Rb, Cb, Rd, Cd. repeat split; auto.
    intros i j _. rewrite Va, Vb, Vd. apply superposition_lin; auto. }
  cbn zeta in Pa, Pb, Pd.
  set (nx := nxyres nact (nr inf) ppd cx cy) in *.
  assert (Lrs : lin_rel x y (resampled ops N ppd nx cx cy (carr nact ppd a inf))
      (resampled ops N ppd nx cx cy (carr nact ppd b inf)) (resampled ops N ppd nx cx cy (carr nact ppd d inf))).
  { repeat split. intros i j _. unfold resampled; cbn [at2].
    rewrite (Li N ppd x y _ _ _ _ _ Lc Rd Cd).
    destruct (Rle_dec _ _); [|ring]. destruct (Rle_dec _ _); [|ring].
    destruct (Rle_dec _ _); [|ring]. destruct (Rle_dec _ _); ring. }
  set (sa := if fx then fliplr (resampled ops N ppd nx cx cy (carr nact ppd a inf)) else _) in Pa.
  set (sb := if fx then fliplr (resampled ops N ppd nx cx cy (carr nact ppd b inf)) else _) in Pb.
  set (sd := if fx then fliplr (resampled ops N ppd nx cx cy (carr nact ppd d inf)) else _) in Pd.
  assert (Lf : lin_rel x y sa sb sd).
  { unfold sa, sb, sd. destruct fx; auto. destruct Lrs as (T1 & T2 & T3 & T4 & T5).
    repeat split; auto. intros i j [Hi Hj]. cbn [nr nc fliplr] in Hi, Hj. unfold fliplr; cbn [at2].
    rewrite T5 by (split; lia). rewrite T2, T4. reflexivity. }
  assert (Lz : lin_rel x y (sp_shift ops (sp_rotate ops sa (- th)) dy dx)
      (sp_shift ops (sp_rotate ops sb (- th)) dy dx) (sp_shift ops (sp_rotate ops sd (- th)) dy dx))
    by (apply (proj2 (Ls dy dx)), (proj2 (Lr (- th)%R)); auto).
  assert (NX : 0 <= nx).
  { apply le_IZR. eapply Rle_trans; [|apply nxyres_ge].
    pose proof sqrt2_ge1. pose proof (Rmax_l cx cy).
    assert (0 < IZR nact)%R by (apply IZR_lt; auto). assert (0 < IZR ppd)%R by (apply IZR_lt; auto).
    assert (0 <= IZR (nr inf))%R by (apply IZR_le; auto).
    assert (0 <= IZR (nr inf) / IZR ppd)%R by (apply Rmult_le_pos; [auto|left; apply Rinv_0_lt_compat; auto]).
    apply Rmult_le_pos; [apply Rmult_le_pos|]; lra. }
  assert (WW : forall s, (nr s = nx) -> (nc s = nx) -> wf (sp_shift ops (sp_rotate ops s (- th)) dy dx)).
  { intros s E1 E2. unfold wf. rewrite (proj1 (proj1 (Ls dy dx) _)), (proj2 (proj1 (Ls dy dx) _)).
    rewrite (proj1 (proj1 (Lr (- th)%R) _)), (proj2 (proj1 (Lr (- th)%R) _)). lia. }
  assert (Wa : wf (sp_shift ops (sp_rotate ops sa (- th)) dy dx)) by (apply WW; unfold sa; destruct fx; auto).
  assert (Wb : wf (sp_shift ops (sp_rotate ops sb (- th)) dy dx)) by (apply WW; unfold sb; destruct fx; auto).
  assert (Wd : wf (sp_shift ops (sp_rotate ops sd (- th)) dy dx)) by (apply WW; unfold sd; destruct fx; auto).
  destruct (pad_crop_ok _ nrow ncol 0%R Wa G1 G2) as (o1 & E1 & R1 & C1 & V1).
  destruct (pad_crop_ok _ nrow ncol 0%R Wb G1 G2) as (o2 & E2 & R2 & C2 & V2).
  destruct (pad_crop_ok _ nrow ncol 0%R Wd G1 G2) as (o3 & E3 & R3 & C3 & V3).
  rewrite E1 in Pa. injection Pa as <-. rewrite E2 in Pb. injection Pb as <-.
  rewrite E3 in Pd. injection Pd as <-.
  destruct Lz as (T1 & T2 & T3 & T4 & T5).
  unfold lin_rel. rewrite R1, R2, R3, C1, C2, C3. repeat split; auto. intros i j [Hi Hj].
  rewrite R3 in Hi. rewrite C3 in Hj.
  rewrite V1, V2, V3 by auto. rewrite T1, T2, T3, T4.
  set (sa' := sp_shift ops (sp_rotate ops sa (- th)) dy dx) in *.
  set (sb' := sp_shift ops (sp_rotate ops sb (- th)) dy dx) in *.
  set (sd' := sp_shift ops (sp_rotate ops sd (- th)) dy dx) in *.
  replace (in_arrb sa') with (in_arrb sd') by (unfold in_arrb; rewrite T1, T2; reflexivity).
  replace (in_arrb sb') with (in_arrb sd') by (unfold in_arrb; rewrite T3, T4; reflexivity).
  destruct (in_arrb sd' _ _) eqn:B; [|ring]. apply in_arrb_spec in B. apply T5; auto.
Qed.
Lemma dmhtoph_zero ops nrow ncol d nact inf ppd cx cy dx dy th fx out :
  wf inf -> linear_ops ops -> (forall i j, in_arr d i j -> at2 d i j = 0%R) ->
  dmhtoph ops nrow ncol d nact inf ppd cx cy dx dy th fx = Ok out ->
  forall i j, in_arr out i j -> at2 out i j = 0%R.
Proof.
  intros W L Z H i j B.
  assert (lin_rel 0 0 d d d) as L0 by (repeat split; intros; rewrite Z by auto; ring).
  destruct (dmhtoph_linear ops nrow ncol d d d 0 0 nact inf ppd cx cy dx dy th fx out out out W L L0 H H H)
    as (_ & _ & _ & _ & V). rewrite V by auto. ring.
Qed.
Lemma dmhtoph_shape ops nrow ncol d nact inf ppd cx cy dx dy th fx out :
  wf inf -> shape_preserving ops ->
  dmhtoph ops nrow ncol d nact inf ppd cx cy dx dy th fx = Ok out -> nr out = nrow /\ nc out = ncol.
Proof.
  intros W [Sr Ss] H. apply dmhtoph_ok in H as (A & G & _ & _ & _ & P); auto.
  destruct A as (G1 & G2 & G3 & G4 & G5 & G6 & G7 & G8 & G9 & G10 & G11 & G13).
  match type of P with pad_crop ?a _ _ = _ => assert (Wa : wf a) end.
  { assert (NX : 0 <= nxyres nact (nr inf) ppd cx cy).
    { apply le_IZR. eapply Rle_trans; [|apply nxyres_ge].
      pose proof sqrt2_ge1. pose proof (Rmax_l cx cy).
      assert (0 < IZR nact)%R by (apply IZR_lt; auto). assert (0 < IZR ppd)%R by (apply IZR_lt; auto).
      assert (0 <= IZR (nr inf))%R by (apply IZR_le; auto).
      assert (0 <= IZR (nr inf) / IZR ppd)%R by (apply Rmult_le_pos; [auto|left; apply Rinv_0_lt_compat; auto]).
      apply Rmult_le_pos; [apply Rmult_le_pos|]; lra. }
    split; rewrite ?(proj1 (Ss _ _ _)), ?(proj2 (Ss _ _ _)), ?(proj1 (Sr _ _)), ?(proj2 (Sr _ _)); destruct fx; cbn; auto. }
  destruct (pad_crop_ok _ nrow ncol 0%R Wa G1 G2) as (o1 & E1 & R1 & C1 & V1).
  rewrite E1 in P. injection P as <-. auto.
Qed.
Lemma dmhtoph_err ops nrow ncol d nact inf ppd cx cy dx dy th fx e : wf inf -> shape_preserving ops ->
  dmhtoph ops nrow ncol d nact inf ppd cx cy dx dy th fx = Err e ->
  (e = TypeError /\ ~ dm_args nrow ncol d nact inf ppd cx cy) \/
  (e = Custom "fitpack" /\ dm_args nrow ncol d nact inf ppd cx cy /\ design_size nact (nr inf) ppd < 4).
Proof.
  intros [W _] Sp H.
  destruct (Z_le_dec 4 (design_size nact (nr inf) ppd)) as [L|L].
  - left. split.
    2:{ intros A. destruct (dmhtoph_defined ops nrow ncol d nact inf ppd cx cy dx dy th fx Sp A L). congruence. }
    unfold dmhtoph in H.
    do 11 (apply guard_err in H as [[_ ->]|[? H]]; [reflexivity|]).
    exfalso.
    destruct (dmhtoph_defined ops nrow ncol d nact inf ppd cx cy dx dy th fx Sp) as (o & E); auto.
    { rewrite ?Z.ltb_lt, ?pos_real_iff, ?andb_true_iff, ?Z.ltb_lt, ?Z.eqb_eq in *.
      destruct (Rlt_dec (IZR ppd) cx); [discriminate|]. destruct (Rlt_dec (IZR ppd) cy); [discriminate|].
      unfold dm_args. repeat split; try tauto; try lra. }
    unfold dmhtoph in E.
    do 11 (apply guard_ok in E as [_ E]). congruence.
  - unfold dmhtoph in H.
    apply guard_err in H as [[B ->]|[H1 H]]; [left; split; [reflexivity|]; intros A; unfold dm_args in A;
       apply Z.ltb_ge in B; lia|].
    apply guard_err in H as [[B ->]|[H2 H]]; [left; split; [reflexivity|]; intros A; unfold dm_args in A;
       apply Z.ltb_ge in B; lia|].
    apply guard_err in H as [[B ->]|[H3 H]]; [left; split; [reflexivity|]; intros A; unfold dm_args in A;
       apply Z.ltb_ge in B; lia|].
    apply guard_err in H as [[B ->]|[H4 H]]; [left; split; [reflexivity|]; intros A; unfold dm_args in A;
       apply Z.ltb_ge in B; lia|].
    apply guard_err in H as [[B ->]|[H5 H]].
    { left; split; [reflexivity|]; intros A; unfold dm_args in A.
      destruct A as (_ & _ & _ & _ & [A _] & _). apply pos_real_iff in A. congruence. }
    apply guard_err in H as [[B ->]|[H6 H]].
    { left; split; [reflexivity|]; intros A; unfold dm_args in A.
      destruct A as (_ & _ & _ & _ & _ & [A _] & _). apply pos_real_iff in A. congruence. }
    apply guard_err in H as [[B ->]|[H7 H]].
    { left; split; [reflexivity|]; intros A; unfold dm_args in A.
      apply andb_false_iff in B. rewrite !Z.ltb_ge in B. lia. }
    apply guard_err in H as [[B ->]|[H8 H]].
    { left; split; [reflexivity|]; intros A; unfold dm_args in A.
      apply andb_false_iff in B. rewrite !Z.eqb_neq in B. lia. }
    apply guard_err in H as [[B ->]|[H9 H]].
    { left; split; [reflexivity|]; intros A; unfold dm_args in A.
      destruct (Rlt_dec (IZR ppd) cx); [lra|]. destruct (Rlt_dec (IZR ppd) cy); [lra|discriminate]. }
    apply guard_err in H as [[B ->]|[H10 H]].
    { left; split; [reflexivity|]; intros A; unfold dm_args in A. apply Z.eqb_neq in B. lia. }
    apply guard_err in H as [[B ->]|[H11 H]].
    { left; split; [reflexivity|]; intros A; unfold dm_args in A. apply Z.eqb_neq in B. lia. }
    rewrite Z.ltb_lt in H1, H2, H3, H4. rewrite pos_real_iff in H5, H6.
    rewrite andb_true_iff, !Z.ltb_lt in H7. rewrite andb_true_iff, !Z.eqb_eq in H8.
    rewrite Z.eqb_eq in H10, H11.
    destruct (Rlt_dec (IZR ppd) cx); [discriminate|]. destruct (Rlt_dec (IZR ppd) cy); [discriminate|].
    destruct (poke_ok nact ppd d) as (a & E & R & C & _); try tauto.
    rewrite E in H. cbn [bind] in H.
    apply guard_err in H as [[B ->]|[B H]].
    + right. split; [reflexivity|]. split; [|lia].
      unfold dm_args. repeat split; try tauto; try lra.
    + exfalso. apply Z.leb_le in B. cbn in B. rewrite R in B. unfold design_size in L. lia.
Qed.

(** ** fit_surf_to_dm *)
Lemma convolve_same_dm_surface k x r c : 0 <= nr x -> 0 <= nc x -> in_arr x r c ->
  at2 (convolve_same x k) r c = dm_surface k x r c.
Proof.
  intros Hr Hc B. cbn.
  transitivity (rsum2 (fun p q => rsum2 (fun a b =>
     (at2 x a b * (if (p =? r - a + nr k / 2)%Z && (q =? c - b + nc k / 2)%Z then at2 k p q else 0))%R) (nr x) (nc x))
     (nr k) (nc k)).
  { apply rsum2_ext. intros p q _ _.
    transitivity (at2 k p q * rsum2 (fun a b => if (a =? r - p + nr k / 2)%Z && (b =? c - q + nc k / 2)%Z
        then at2 x a b else 0%R) (nr x) (nc x))%R.
    - rewrite rsum2_pick, at0_expand. reflexivity.
    - rewrite <- rsum2_scal. apply rsum2_ext. intros a b _ _.
      replace (p =? r - a + nr k / 2) with (a =? r - p + nr k / 2)
        by (destruct (Z.eqb_spec a (r - p + nr k / 2)), (Z.eqb_spec p (r - a + nr k / 2)); lia).
      replace (q =? c - b + nc k / 2) with (b =? c - q + nc k / 2)
        by (destruct (Z.eqb_spec b (c - q + nc k / 2)), (Z.eqb_spec q (c - b + nc k / 2)); lia).
      destruct ((a =? r - p + nr k / 2) && (b =? c - q + nc k / 2)); ring. }
  rewrite rsum2_swap4. unfold dm_surface. apply rsum2_ext. intros a b _ _.
  rewrite rsum2_scal. f_equal. rewrite rsum2_pick, at0_expand. reflexivity.
Qed.
Lemma poke_response nrow ncol j k p : 0 < nrow -> 0 < ncol -> 0 <= j < nrow * ncol -> 0 <= p < nrow * ncol ->
  at2 (convolve_same (unit_poke nrow ncol j) k) (p / ncol) (p mod ncol)
  = at0 k (p / ncol - j / ncol + nr k / 2) (p mod ncol - j mod ncol + nc k / 2).
Proof.
  intros Hr Hc Hj Hp.
  assert (D : forall q, 0 <= q < nrow * ncol -> 0 <= q / ncol < nrow /\ 0 <= q mod ncol < ncol).
  { intros q Hq. split; [split; [apply Z.div_pos; lia|apply Z.div_lt_upper_bound; lia]|apply Z.mod_pos_bound; lia]. }
  pose proof (D p Hp). pose proof (D j Hj).
  rewrite convolve_same_dm_surface by (unfold in_arr; cbn; lia). unfold dm_surface. cbn [nr nc unit_poke at2].
  transitivity (rsum2 (fun a b => if (a =? j / ncol) && (b =? j mod ncol) then
     at0 k (p / ncol - a + nr k / 2) (p mod ncol - b + nc k / 2) else 0%R) nrow ncol).
  - apply rsum2_ext. intros a b Ha Hb.
    pose proof (Z.div_mod j ncol ltac:(lia)) as DM.
    destruct (Z.eqb_spec (a * ncol + b) j) as [E|E].
    + rewrite (Z.div_unique j ncol a b), (Z.mod_unique j ncol a b), !Z.eqb_refl by lia. cbn. ring.
    + destruct (Z.eqb_spec a (j / ncol)); cbn; [|ring]. destruct (Z.eqb_spec b (j mod ncol)); [|ring].
      exfalso. nia.
  - rewrite rsum2_pick.
    rewrite (proj2 (Z.leb_le 0 (j / ncol))), (proj2 (Z.ltb_lt (j / ncol) nrow)),
      (proj2 (Z.leb_le 0 (j mod ncol))), (proj2 (Z.ltb_lt (j mod ncol) ncol)) by lia. reflexivity.
Qed.
Lemma resample_pos sp inf ppa k : resample_inf_func sp inf ppa 1 = Ok k -> (0 < ppa)%R.
Proof. unfold resample_inf_func. intros H. apply guard_ok in H as [P _]. apply pos_real_iff. auto. Qed.
Lemma build_prefilter_ok sp nrow ncol inf ppa A : build_prefilter sp nrow ncol inf ppa = Ok A ->
  0 < nrow /\ 0 < ncol /\ (0 < ppa)%R /\ sdim A = nrow * ncol /\
  exists k, resample_inf_func sp inf ppa 1 = Ok k /\
  forall j p, 0 <= j < nrow * ncol -> 0 <= p < nrow * ncol ->
   sat A j p = at0 k (p / ncol - j / ncol + nr k / 2) (p mod ncol - j mod ncol + nc k / 2).
Proof.
  unfold build_prefilter. intros H. apply guard_ok in H as [G1 H]. apply guard_ok in H as [G2 H].
  apply guard_ok in H as [G3 H]. rewrite Z.ltb_lt in G1, G2. apply pos_real_iff in G3.
  destruct (resample_inf_func sp inf ppa 1) as [k|] eqn:E; [|discriminate]. injection H as <-.
  repeat (split; [auto|]). exists k. split; [auto|]. intros j p Hj Hp.
  unfold sat. apply poke_response; auto.
Qed.
(** The fit inverts the model with the point-reflected kernel. *)
Lemma fit_reflected solve sp surf inf ppa k A x : is_solver solve ->
  build_prefilter sp (nr surf) (nc surf) inf ppa = Ok A -> nonsingular (sdim A) (sat A) ->
  resample_inf_func sp inf ppa 1 = Ok k ->
  fit_surf_to_dm solve surf A = Ok x ->
  nr x = nr surf /\ nc x = nc surf /\
  forall r c, in_arr surf r c ->
    rsum2 (fun a b => at2 x a b * at0 k (a - r + nr k / 2) (b - c + nc k / 2))%R (nr surf) (nc surf) = at2 surf r c.
Proof.
  intros Hs B Ns Rk F. apply build_prefilter_ok in B as (G1 & G2 & G3 & G4 & k' & E & V).
  rewrite Rk in E. injection E as <-.
  unfold fit_surf_to_dm in F. apply guard_ok in F as [_ F]. injection F as <-. cbn [nr nc at2].
  split; [auto|split; [auto|]]. intros r c [Hr Hc].
  set (b := fun p => at2 surf (p / nc surf) (p mod nc surf)).
  pose proof (Hs _ _ b Ns (r * nc surf + c)) as S. rewrite G4 in S. specialize (S ltac:(nia)).
  assert (D1 : (r * nc surf + c) / nc surf = r) by (symmetry; apply Z.div_unique with c; lia).
  assert (D2 : (r * nc surf + c) mod nc surf = c) by (symmetry; apply Z.mod_unique with r; lia).
  unfold b at 2 in S. rewrite D1, D2 in S. rewrite <- S.
  rewrite G4.
  rewrite <- (rsum_flat (fun a b0 => (solve (nr surf * nc surf)%Z (sat A) b (a * nc surf + b0)%Z *
      at0 k (a - r + nr k / 2) (b0 - c + nc k / 2))%R)) by lia.
  apply rsum_ext. intros p Hp. rewrite V by nia. rewrite D1, D2.
  replace (p / nc surf * nc surf + p mod nc surf) with p by (pose proof (Z.div_mod p (nc surf) ltac:(lia)); lia).
  ring.
Qed.
Lemma symmetric_at0 k u v : nr k mod 2 = 1 -> nc k mod 2 = 1 -> point_symmetric k ->
  at0 k (u + nr k / 2) (v + nc k / 2) = at0 k (- u + nr k / 2) (- v + nc k / 2).
Proof.
  intros O1 O2 S.
  pose proof (Z.div_mod (nr k) 2 ltac:(lia)). pose proof (Z.div_mod (nc k) 2 ltac:(lia)).
  destruct (in_arrb k (u + nr k / 2) (v + nc k / 2)) eqn:B.
  - apply in_arrb_spec in B. pose proof B as [B1 B2]. rewrite at0_in by auto.
    rewrite at0_in by (split; lia). rewrite <- (S _ _ B). f_equal; lia.
  - apply in_arrb_false in B. rewrite !at0_out; auto. intros [B1 B2]. apply B. split; lia.
Qed.
Lemma fit_symmetric solve sp surf inf ppa k A x : is_solver solve ->
  build_prefilter sp (nr surf) (nc surf) inf ppa = Ok A -> nonsingular (sdim A) (sat A) ->
  resample_inf_func sp inf ppa 1 = Ok k -> nr k mod 2 = 1 -> nc k mod 2 = 1 -> point_symmetric k ->
  fit_surf_to_dm solve surf A = Ok x ->
  nr x = nr surf /\ nc x = nc surf /\
  forall r c, in_arr surf r c -> dm_surface k x r c = at2 surf r c.
Proof.
  intros Hs B Ns Rk O1 O2 S F.
  destruct (fit_reflected _ _ _ _ _ _ _ _ Hs B Ns Rk F) as (R & C & V).
  split; [auto|split; [auto|]]. intros r c I. rewrite <- (V r c I). unfold dm_surface. rewrite R, C.
  apply rsum2_ext. intros a b _ _. f_equal.
  rewrite (symmetric_at0 k (a - r) (b - c)) by auto. f_equal; lia.
Qed.
Lemma resample_symmetric sp inf ppa k : spline_symmetric sp -> point_symmetric inf ->
  resample_inf_func sp inf ppa 1 = Ok k ->
  (ppa <> 1%R -> nr k mod 2 = 1 /\ nc k mod 2 = 1 /\
     nr k = 2 * Zfloor (IZR (nr inf) / 2 / ppa) + 1 /\ nc k = 2 * Zfloor (IZR (nc inf) / 2 / ppa) + 1) /\
  (ppa = 1%R -> k = inf) /\ point_symmetric k.
Proof.
  intros Hs S H. pose proof (resample_pos _ _ _ _ H). unfold resample_inf_func in H.
  apply guard_ok in H as [_ H]. apply guard_ok in H as [_ H].
  destruct (Req_EM_T ppa 1) as [->|Hp].
  - injection H as <-. split; [|split]; auto. congruence.
  - apply guard_ok in H as [_ H]. injection H as <-. split; [|split].
    + intros _. unfold resampled_size. cbn [nr nc].
      assert (E : forall n, (/ 2 * IZR n * 1 / ppa = IZR n / 2 / ppa)%R) by (intros; field; lra).
      rewrite !E. repeat split; rewrite Z.add_comm, Z.mul_comm, Z.mod_add by lia; reflexivity.
    + congruence.
    + intros p q _. cbn [at2 nr nc]. rewrite <- Hs by auto.
      f_equal; rewrite !minus_IZR; field.
Qed.
Lemma fit_defined solve surf A : sdim A = nr surf * nc surf -> exists x, fit_surf_to_dm solve surf A = Ok x.
Proof. intros H. unfold fit_surf_to_dm. rewrite guard_true by (apply Z.eqb_eq; auto). eauto. Qed.
Lemma fit_err solve surf A e : fit_surf_to_dm solve surf A = Err e -> e = TypeError /\ sdim A <> nr surf * nc surf.
Proof.
  unfold fit_surf_to_dm. intros H. apply guard_err in H as [[B ->]|[_ H]]; [|discriminate].
  apply Z.eqb_neq in B. auto.
Qed.
(** A solver exists. *)
Definition solve_ref : spsolve_fun := fun n A b => lstsq_ref (zrange n) n A b.
Lemma solve_ref_ok : is_solver solve_ref.
Proof.
  intros n A b Ns. destruct (Ns b) as [[x Hx] _]. intros i Hi.
  pose proof (lstsq_ref_ok (zrange n) n A b) as L.
  pose proof (lstsq_exact (zrange n) n A b (solve_ref n A b) x L) as E.
  assert (Q : forall p, In p (zrange n) -> b p = fitted n A x p).
  { intros p Hp. apply in_zrange in Hp. unfold fitted. rewrite <- (Hx p Hp). apply rsum_ext. intros; ring. }
  specialize (E Q i (proj2 (in_zrange n i) Hi)). rewrite <- E.
  unfold fitted. apply rsum_ext. intros; ring.
Qed.
(** A non-symmetric kernel for which the fit is wrong. *)
Definition k_bad : arr R := Arr 1 3 (fun _ q => if q =? 0 then 0%R else 1%R).
Definition surf_bad : arr R := Arr 1 2 (fun _ q => if q =? 0 then 0%R else 1%R).
Lemma fit_nonsymmetric_wrong : forall solve sp, is_solver solve -> exists A x,
  build_prefilter sp 1 2 k_bad 1 = Ok A /\ nonsingular (sdim A) (sat A) /\
  resample_inf_func sp k_bad 1 1 = Ok k_bad /\
  fit_surf_to_dm solve surf_bad A = Ok x /\ dm_surface k_bad x 0 0 <> at2 surf_bad 0 0.
Proof.
  intros solve sp Hs.
  assert (P1 : pos_real 1 = true) by (apply pos_real_iff; lra).
  assert (Rk : resample_inf_func sp k_bad 1 1 = Ok k_bad).
  { unfold resample_inf_func. rewrite P1. cbn [guard bind]. destruct (Req_EM_T 1 1); [auto|lra]. }
  assert (B : exists A, build_prefilter sp 1 2 k_bad 1 = Ok A).
  { unfold build_prefilter. rewrite P1, Rk. cbn. eauto. }
  destruct B as [A B]. pose proof B as B'. apply build_prefilter_ok in B' as (_ & _ & _ & Dm & k & Ek & V).
  rewrite Rk in Ek. injection Ek as <-.
  assert (S : forall x i, rsum (fun k => (sat A i k * x k)%R) 2 = (sat A i 0 * x 0%Z + sat A i 1 * x 1%Z)%R).
  { intros x i. change 2 with (0 + 1 + 1)%Z. rewrite !rsum_succ by lia. rewrite rsum_0 by lia. cbn. ring. }
  assert (V00 : sat A 0 0 = 1%R) by (rewrite V by lia; reflexivity).
  assert (V01 : sat A 0 1 = 1%R) by (rewrite V by lia; reflexivity).
  assert (V10 : sat A 1 0 = 0%R) by (rewrite V by lia; reflexivity).
  assert (V11 : sat A 1 1 = 1%R) by (rewrite V by lia; reflexivity).
  assert (Ns : nonsingular (sdim A) (sat A)).
  { rewrite Dm. intros b. split.
    - exists (fun i : Z => if i =? 0 then (b 0%Z - b 1%Z)%R else b 1). intros i Hi. change (1 * 2) with 2. rewrite S. cbn.
      assert (i = 0 \/ i = 1) as [->| ->] by lia; rewrite ?V00, ?V01, ?V10, ?V11; ring.
    - intros x y Hx Hy. change (1 * 2) with 2 in *.
      pose proof (Hx 0 ltac:(lia)) as X0. pose proof (Hx 1 ltac:(lia)) as X1.
      pose proof (Hy 0 ltac:(lia)) as Y0. pose proof (Hy 1 ltac:(lia)) as Y1.
      rewrite S in X0, X1, Y0, Y1. rewrite V00, V01 in X0, Y0. rewrite V10, V11 in X1, Y1.
      intros i Hi. assert (i = 0 \/ i = 1) as [->| ->] by lia; lra. }
  destruct (fit_defined solve surf_bad A Dm) as [x F].
  exists A, x. split; [auto|]. split; [auto|]. split; [auto|]. split; [auto|].
  pose proof F as F'. unfold fit_surf_to_dm in F'. apply guard_ok in F' as [_ F']. injection F' as <-.
  set (b := fun p : Z => if p mod 2 =? 0 then 0%R else 1%R) in *. pose proof (Hs _ _ b Ns) as Q. unfold solves in Q.
  set (y := solve (sdim A) (sat A) b) in *. rewrite Dm in Q. change (1 * 2) with 2 in Q.
  pose proof (Q 0 ltac:(lia)) as Q0. pose proof (Q 1 ltac:(lia)) as Q1. rewrite S in Q0, Q1.
  rewrite V00, V01 in Q0. rewrite V10, V11 in Q1.
  assert (b 0 = 0%R) by reflexivity. assert (b 1 = 1%R) by reflexivity.
  unfold dm_surface, rsum2. cbn [nr nc at2 surf_bad]. rewrite rsum_one.
  change 2 with (0 + 1 + 1)%Z. rewrite !rsum_succ by lia. rewrite rsum_0 by lia.
  change (0 * 2 + 0) with 0. change (0 * 2 + (0 + 1)) with 1. cbn. lra.
Qed.

(** ** dmshapes *)
Lemma grid_ok nact xs ys xo yo poke : 0 < nact -> 0 < xs <= nact -> 0 < ys <= nact -> 0 <= xo < xs -> 0 <= yo < ys ->
  exists d, grid nact xs ys xo yo poke = Ok d /\ nr d = nact /\ nc d = nact /\
  forall r c, in_arr d r c ->
    (r mod ys = yo /\ c mod xs = xo -> at2 d r c = poke) /\
    (~ (r mod ys = yo /\ c mod xs = xo) -> at2 d r c = 0%R).
Proof.
  intros H1 H2 H3 H4 H5. unfold grid.
  do 3 (rewrite guard_true by (apply Z.ltb_lt; lia)).
  do 2 (rewrite guard_true by (apply Z.leb_le; lia)).
  do 2 (rewrite guard_true by (rewrite negb_true_iff, Z.leb_gt; lia)).
  do 2 (rewrite guard_true by (rewrite negb_true_iff, Z.ltb_ge; lia)).
  eexists. split; [reflexivity|]. split; [auto|split; [auto|]]. intros r c [Hr Hc]. cbn in Hr, Hc. cbn.
  assert (K : forall o s i, 0 < s -> 0 <= o < s -> 0 <= i -> on_stride o s i = true <-> i mod s = o).
  { intros o s i Hs Ho Hi. rewrite on_stride_spec by auto. split.
    - intros (k & Hk & ->). rewrite Z.mod_add by lia. apply Z.mod_small; auto.
    - intros E. exists (i / s). split; [apply Z.div_pos; lia|]. pose proof (Z.div_mod i s ltac:(lia)). lia. }
  pose proof (K yo ys r ltac:(lia) ltac:(lia) ltac:(lia)) as K1.
  pose proof (K xo xs c ltac:(lia) ltac:(lia) ltac:(lia)) as K2.
  destruct (on_stride yo ys r), (on_stride xo xs c); cbn; split; intros Q; try ring; exfalso;
    destruct K1 as [K1 K1'], K2 as [K2 K2'];
    try (apply Q; split; [apply K1|apply K2]; reflexivity);
    destruct Q as [Q1 Q2]; try (apply K1' in Q1; discriminate); try (apply K2' in Q2; discriminate).
Qed.
Lemma grid_err nact xs ys xo yo poke e : grid nact xs ys xo yo poke = Err e ->
  (e = TypeError /\ (nact <= 0 \/ xs <= 0 \/ ys <= 0 \/ xo < 0 \/ yo < 0)) \/
  (e = ValueError /\ (xs <= xo \/ ys <= yo \/ nact < xs \/ nact < ys)).
Proof.
  unfold grid. intros H.
  do 3 (apply guard_err in H as [[B ->]|[_ H]]; [left; split; [auto|apply Z.ltb_ge in B; lia]|]).
  do 2 (apply guard_err in H as [[B ->]|[_ H]]; [left; split; [auto|apply Z.leb_gt in B; lia]|]).
  do 2 (apply guard_err in H as [[B ->]|[_ H]]; [right; split; [auto|rewrite negb_false_iff, Z.leb_le in B; lia]|]).
  do 2 (apply guard_err in H as [[B ->]|[_ H]]; [right; split; [auto|rewrite negb_false_iff, Z.ltb_lt in B; lia]|]).
  discriminate.
Qed.
Lemma grid_partition nact xs ys poke r c : 0 < nact -> 0 < xs <= nact -> 0 < ys <= nact -> (poke <> 0)%R ->
  0 <= r < nact -> 0 <= c < nact ->
  exists xo yo, (0 <= xo < xs /\ 0 <= yo < ys /\
     exists d, grid nact xs ys xo yo poke = Ok d /\ at2 d r c = poke) /\
  forall xo' yo', 0 <= xo' < xs -> 0 <= yo' < ys -> (xo', yo') <> (xo, yo) ->
     exists d, grid nact xs ys xo' yo' poke = Ok d /\ at2 d r c = 0%R.
Proof.
  intros H1 H2 H3 H4 H5 H6. exists (c mod xs), (r mod ys).
  pose proof (Z.mod_pos_bound c xs ltac:(lia)). pose proof (Z.mod_pos_bound r ys ltac:(lia)).
  split; [split; [auto|split; [auto|]]|].
  - destruct (grid_ok nact xs ys (c mod xs) (r mod ys) poke) as (d & E & R & C & V); auto.
    exists d. split; auto. apply V; auto. split; lia.
  - intros xo yo Hx Hy Hn. destruct (grid_ok nact xs ys xo yo poke) as (d & E & R & C & V); auto.
    exists d. split; auto. apply V; [split; lia|]. intros [E1 E2]. apply Hn. congruence.
Qed.

Lemma sine_ok nact dact amp ph fx fy : 0 < nact -> (0 < dact)%R -> (0 < amp)%R ->
  exists d, sine nact dact amp ph fx fy = Ok d /\ nr d = nact /\ nc d = nact.
Proof.
  intros H1 H2 H3. unfold sine. rewrite guard_true by (apply Z.ltb_lt; auto).
  do 2 (rewrite guard_true by (apply pos_real_iff; auto)). eexists. split; [reflexivity|auto].
Qed.
Lemma sine_inv nact dact amp ph fx fy d : sine nact dact amp ph fx fy = Ok d ->
  0 < nact /\ (0 < dact)%R /\ (0 < amp)%R /\ d = Arr nact nact (fun r c =>
    (amp * sin (2 * PI * ((IZR c - (IZR nact - 1) / 2) * fx + (IZR r - (IZR nact - 1) / 2) * fy) / dact + ph * PI / 180))%R).
Proof.
  unfold sine. intros H. apply guard_ok in H as [G1 H]. apply guard_ok in H as [G2 H].
  apply guard_ok in H as [G3 H]. injection H as <-. apply Z.ltb_lt in G1.
  apply pos_real_iff in G2, G3. auto.
Qed.
Lemma sine_bound nact dact amp ph fx fy d : sine nact dact amp ph fx fy = Ok d ->
  nr d = nact /\ nc d = nact /\ forall r c, (Rabs (at2 d r c) <= amp)%R.
Proof.
  intros H. apply sine_inv in H as (G1 & G2 & G3 & ->). cbn. repeat split. intros r c.
  rewrite Rabs_mult, (Rabs_pos_eq amp) by lra.
  match goal with |- context [sin ?a] => pose proof (SIN_bound a) as S end.
  apply Rabs_le in S. nra.
Qed.
Lemma sine_flip nact dact amp ph fx fy d d' : sine nact dact amp ph fx fy = Ok d ->
  sine nact dact amp (ph + 180) fx fy = Ok d' -> forall r c, at2 d' r c = (- at2 d r c)%R.
Proof.
  intros H H'. apply sine_inv in H as (_ & G2 & _ & ->). apply sine_inv in H' as (_ & _ & _ & ->).
  intros r c. cbn. rewrite Ropp_mult_distr_r, <- neg_sin. apply f_equal, f_equal. field. lra.
Qed.
(** One period along x is dact/freqx columns, along y dact/freqy rows. *)
Lemma sine_period nact dact amp ph fx fy d (k l m : Z) : sine nact dact amp ph fx fy = Ok d ->
  (IZR k * fx + IZR l * fy = IZR m * dact)%R -> forall r c, at2 d (r + l) (c + k) = at2 d r c.
Proof.
  intros H E. apply sine_inv in H as (G1 & G2 & G3 & ->). intros r c. cbn. f_equal.
  rewrite !plus_IZR.
  match goal with |- sin ?a = sin ?b => replace a with (b + 2 * IZR m * PI)%R end.
  - destruct (Z_le_dec 0 m) as [Hm|Hm].
    + replace (IZR m) with (INR (Z.to_nat m)) by (rewrite INR_IZR_INZ, Z2Nat.id by lia; auto).
      apply sin_period.
    + rewrite <- (sin_period _ (Z.to_nat (- m))). f_equal.
      rewrite INR_IZR_INZ, Z2Nat.id by lia. rewrite opp_IZR. ring.
  - replace (2 * IZR m * PI)%R with (2 * PI * (IZR m * dact) / dact)%R by (field; lra). rewrite <- E. field. lra.
Qed.
(** The phase is the phase at the centre of the DM. *)
Lemma sine_centre nact dact amp ph fx fy d m : sine nact dact amp ph fx fy = Ok d -> nact = 2 * m + 1 ->
  at2 d m m = (amp * sin (ph * PI / 180))%R.
Proof.
  intros H E. apply sine_inv in H as (G1 & G2 & G3 & ->). cbn. do 2 f_equal.
  rewrite E, plus_IZR, mult_IZR. field. lra.
Qed.

Lemma sinc_bound x : (Rabs (np_sinc x) <= 1)%R.
Proof.
  unfold np_sinc. destruct (Req_EM_T x 0); [rewrite Rabs_R1; lra|].
  pose proof PI_RGT_0.
  assert (Hy : (PI * x <> 0)%R) by (apply Rmult_integral_contrapositive; split; lra).
  set (y := (PI * x)%R) in *. unfold Rdiv. rewrite Rabs_mult, Rabs_inv.
  assert (P : (0 < Rabs y)%R) by (apply Rabs_pos_lt; auto).
  assert (B : (Rabs (sin y) <= Rabs y)%R).
  { assert (B0 : forall z, (0 < z -> Rabs (sin z) <= z)%R).
    { intros z Hz. apply Rabs_le. split.
      - destruct (Rle_dec z PI) as [Hp|Hp].
        + pose proof (sin_ge_0 z ltac:(lra) Hp). lra.
        + pose proof (SIN_bound z). pose proof PI2_1. lra.
      - left. apply sin_lt_x; auto. }
    destruct (Rle_dec 0 y).
    - rewrite (Rabs_pos_eq y) by auto. apply B0. lra.
    - rewrite (Rabs_left y) by lra. replace (sin y) with (- sin (- y))%R by (rewrite sin_neg; ring).
      rewrite Rabs_Ropp. apply B0. lra. }
  apply Rmult_le_reg_r with (Rabs y); auto. rewrite Rmult_assoc, Rinv_l by lra. lra.
Qed.
Lemma probe_inv nact dact xc yc cl h x0 x1 e0 e1 ph d : probe nact dact xc yc cl h x0 x1 e0 e1 ph = Ok d ->
  0 < nact /\ (0 < dact)%R /\ (0 < h)%R /\ (x0 < x1)%R /\ (e0 < e1)%R /\
  d = Arr nact nact (fun r c =>
    let xx0 := (IZR c - (IZR nact - 1) / 2 - xc)%R in
    let yy0 := (IZR r - (IZR nact - 1) / 2 - yc)%R in
    let xx := (xx0 * cos (cl * PI / 180) - yy0 * sin (cl * PI / 180))%R in
    let yy := (xx0 * sin (cl * PI / 180) + yy0 * cos (cl * PI / 180))%R in
    (h * np_sinc (xx / (dact / (x1 - x0))) * np_sinc (yy / (dact / (e1 - e0))) /
      (dact / (x1 - x0) * (dact / (e1 - e0))) *
      (2 * sin (2 * PI * (xx * ((x0 + x1) / 2) + yy * ((e0 + e1) / 2)) / dact + ph * PI / 180)))%R).
Proof.
  unfold probe. intros H. apply guard_ok in H as [G1 H]. apply guard_ok in H as [G2 H].
  apply guard_ok in H as [G3 H]. apply guard_ok in H as [G4 H]. apply guard_ok in H as [G5 H].
  injection H as <-. apply Z.ltb_lt in G1. apply pos_real_iff in G2, G3.
  destruct (Rle_dec x1 x0); [discriminate|]. destruct (Rle_dec e1 e0); [discriminate|].
  repeat split; auto; lra.
Qed.
Lemma probe_bound nact dact xc yc cl h x0 x1 e0 e1 ph d : probe nact dact xc yc cl h x0 x1 e0 e1 ph = Ok d ->
  nr d = nact /\ nc d = nact /\
  forall r c, (Rabs (at2 d r c) <= 2 * h * (x1 - x0) * (e1 - e0) / dact ^ 2)%R.
Proof.
  intros H. apply probe_inv in H as (G1 & G2 & G3 & G4 & G5 & ->). cbn [nr nc at2]. repeat split. intros r c.
  cbn zeta. set (s1 := np_sinc _). set (s2 := np_sinc _). set (s3 := sin _).
  replace (h * s1 * s2 / (dact / (x1 - x0) * (dact / (e1 - e0))) * (2 * s3))%R
    with (2 * h * (x1 - x0) * (e1 - e0) / dact ^ 2 * (s1 * s2 * s3))%R by (field; lra).
  rewrite Rabs_mult.
  assert (Pk : (0 < 2 * h * (x1 - x0) * (e1 - e0) / dact ^ 2)%R).
  { apply Rmult_lt_0_compat; [|apply Rinv_0_lt_compat, pow_lt; auto].
    repeat apply Rmult_lt_0_compat; lra. }
  rewrite (Rabs_pos_eq (2 * _ * _ * _ / _)) by lra.
  rewrite <- (Rmult_1_r (2 * h * (x1 - x0) * (e1 - e0) / dact ^ 2)) at 2.
  apply Rmult_le_compat_l; [lra|].
  rewrite !Rabs_mult.
  pose proof (sinc_bound (((IZR c - (IZR nact - 1) / 2 - xc) * cos (cl * PI / 180) -
    (IZR r - (IZR nact - 1) / 2 - yc) * sin (cl * PI / 180)) / (dact / (x1 - x0))))%R as B1. fold s1 in B1.
  assert (B2 : (Rabs s2 <= 1)%R) by apply sinc_bound.
  assert (B3 : (Rabs s3 <= 1)%R) by (apply Rabs_le, SIN_bound).
  pose proof (Rabs_pos s1). pose proof (Rabs_pos s2). pose proof (Rabs_pos s3).
  assert (Rabs s1 * Rabs s2 <= 1)%R by nra. assert (0 <= Rabs s1 * Rabs s2)%R by nra. nra.
Qed.
Lemma probe_flip nact dact xc yc cl h x0 x1 e0 e1 ph d d' : probe nact dact xc yc cl h x0 x1 e0 e1 ph = Ok d ->
  probe nact dact xc yc cl h x0 x1 e0 e1 (ph + 180) = Ok d' -> forall r c, at2 d' r c = (- at2 d r c)%R.
Proof.
  intros H H'. apply probe_inv in H as (_ & G2 & _ & _ & _ & ->). apply probe_inv in H' as (_ & _ & _ & _ & _ & ->).
  intros r c. cbn [at2]. cbn zeta. rewrite Ropp_mult_distr_r, Ropp_mult_distr_r, <- neg_sin. apply f_equal, f_equal, f_equal. field. lra.
Qed.
Lemma probe_translate nact dact xc yc cl h x0 x1 e0 e1 ph d d' (k l : Z) :
  probe nact dact xc yc cl h x0 x1 e0 e1 ph = Ok d ->
  probe nact dact (xc + IZR k) (yc + IZR l) cl h x0 x1 e0 e1 ph = Ok d' ->
  forall r c, at2 d' (r + l) (c + k) = at2 d r c.
Proof.
  intros H H'. apply probe_inv in H as (_ & G2 & _ & _ & _ & ->). apply probe_inv in H' as (_ & _ & _ & _ & _ & ->).
  intros r c. cbn [at2]. cbn zeta. rewrite !plus_IZR.
  replace (IZR c + IZR k - (IZR nact - 1) / 2 - (xc + IZR k))%R with (IZR c - (IZR nact - 1) / 2 - xc)%R by ring.
  replace (IZR r + IZR l - (IZR nact - 1) / 2 - (yc + IZR l))%R with (IZR r - (IZR nact - 1) / 2 - yc)%R by ring.
  reflexivity.
Qed.
Lemma probe_quarter_turn nact dact xc yc cl h x0 x1 e0 e1 ph d d' :
  probe nact dact xc yc cl h x0 x1 e0 e1 ph = Ok d ->
  probe nact dact yc (- xc) (cl + 90) h x0 x1 e0 e1 ph = Ok d' ->
  forall r c, at2 d' (nact - 1 - c) r = at2 d r c.
Proof.
  intros H H'. apply probe_inv in H as (_ & G2 & _ & _ & _ & ->). apply probe_inv in H' as (_ & _ & _ & _ & _ & ->).
  intros r c. cbn [at2]. cbn zeta.
  replace ((cl + 90) * PI / 180)%R with (PI / 2 + cl * PI / 180)%R by field.
  rewrite sin_cos_pi2 || idtac.
  assert (Es : sin (PI / 2 + cl * PI / 180) = cos (cl * PI / 180)).
  { rewrite sin_plus, sin_PI2, cos_PI2. ring. }
  assert (Ec : cos (PI / 2 + cl * PI / 180) = (- sin (cl * PI / 180))%R).
  { rewrite cos_plus, sin_PI2, cos_PI2. ring. }
  rewrite Es, Ec. rewrite !minus_IZR.
  set (S := sin (cl * PI / 180)). set (Q := cos (cl * PI / 180)).
  replace ((IZR r - (IZR nact - 1) / 2 - yc) * - S - (IZR nact - 1 - IZR c - (IZR nact - 1) / 2 - - xc) * Q)%R
    with ((IZR c - (IZR nact - 1) / 2 - xc) * Q - (IZR r - (IZR nact - 1) / 2 - yc) * S)%R by field.
  replace ((IZR r - (IZR nact - 1) / 2 - yc) * Q + (IZR nact - 1 - IZR c - (IZR nact - 1) / 2 - - xc) * - S)%R
    with ((IZR c - (IZR nact - 1) / 2 - xc) * S + (IZR r - (IZR nact - 1) / 2 - yc) * Q)%R by field.
  reflexivity.
Qed.
Lemma probe_defined nact dact xc yc cl h x0 x1 e0 e1 ph :
  0 < nact -> (0 < dact)%R -> (0 < h)%R -> (x0 < x1)%R -> (e0 < e1)%R ->
  exists d, probe nact dact xc yc cl h x0 x1 e0 e1 ph = Ok d.
Proof.
  intros H1 H2 H3 H4 H5. unfold probe. rewrite guard_true by (apply Z.ltb_lt; auto).
  do 2 (rewrite guard_true by (apply pos_real_iff; auto)).
  destruct (Rle_dec x1 x0); [lra|]. destruct (Rle_dec e1 e0); [lra|]. cbn. eauto.
Qed.
(** At its centre, with phase 90 and an actuator there, the probe reaches its bound. *)
Lemma probe_peak nact dact xc yc cl h x0 x1 e0 e1 d r c : probe nact dact xc yc cl h x0 x1 e0 e1 90 = Ok d ->
  (IZR c - (IZR nact - 1) / 2 = xc)%R -> (IZR r - (IZR nact - 1) / 2 = yc)%R ->
  at2 d r c = (2 * h * (x1 - x0) * (e1 - e0) / dact ^ 2)%R.
Proof.
  intros H E1 E2. apply probe_inv in H as (G1 & G2 & G3 & G4 & G5 & ->). cbn [at2]. cbn zeta. rewrite E1, E2.
  replace ((xc - xc) * cos (cl * PI / 180) - (yc - yc) * sin (cl * PI / 180))%R with 0%R by ring.
  replace ((xc - xc) * sin (cl * PI / 180) + (yc - yc) * cos (cl * PI / 180))%R with 0%R by ring.
  replace (0 / (dact / (x1 - x0)))%R with 0%R by (field; lra).
  replace (0 / (dact / (e1 - e0)))%R with 0%R by (field; lra).
  unfold np_sinc. destruct (Req_EM_T 0 0); [|lra].
  replace (2 * PI * (0 * ((x0 + x1) / 2) + 0 * ((e0 + e1) / 2)) / dact + 90 * PI / 180)%R with (PI / 2)%R by (field; lra).
  rewrite sin_PI2. field. lra.
Qed.

Lemma dm_zernike_ok nact dact size j : 0 < nact -> (0 < dact)%R -> 1 <= j ->
  exists d, dm_zernike nact dact size j = Ok d /\ nr d = nact /\ nc d = nact /\
  forall r c n m rho th, in_arr d r c -> noll_index j n m ->
    polar_of (IZR c - (IZR nact - 1) / 2) (IZR r - (IZR nact - 1) / 2) rho th ->
    at2 d r c = (size * noll_zernike j n m (rho / (dact / 2)) th)%R.
Proof.
  intros H1 H2 H3. unfold dm_zernike. rewrite guard_true by (apply Z.ltb_lt; auto).
  rewrite guard_true by (apply pos_real_iff; auto). rewrite guard_true by (apply Z.ltb_lt; lia).
  set (xx := Arr _ _ _). set (yy := Arr nact nact (fun r _ => _)).
  destruct (xyzern_ok xx yy (dact / 2) [j]) as (cube & E & L & V); auto; try lra.
  { discriminate. }
  { intros k [<-|[]]. auto. }
  rewrite E. cbn [bind]. destruct cube as [|z [|]]; try discriminate.
  destruct (V 0%nat j z eq_refl eq_refl) as (R & C & P).
  eexists. split; [reflexivity|]. cbn. split; [auto|split; [auto|]].
  intros r c n m rho th [Hr Hc] Hi Hp. cbn in Hr, Hc. f_equal.
  apply P; auto. unfold in_arr. rewrite <- R, <- C. auto.
Qed.

(** Reference scipy operations (nearest-neighbour interpolation, no motion) satisfying the hypotheses. *)
Definition ops_ref : scipy_ops :=
  ScipyOps (fun n ppd a Y X => at0 a (Zfloor (Y * IZR ppd + (IZR n - 1) / 2)%R)
                                     (Zfloor (X * IZR ppd + (IZR n - 1) / 2)%R))
           (fun a _ => a) (fun a _ _ => a).
Lemma ops_ref_ok : interpolates ops_ref /\ shape_preserving ops_ref /\ linear_ops ops_ref /\ still ops_ref.
Proof.
  split; [|split; [|split]].
  - intros n ppd a k l Hp Hr Hc Hk Hl. cbn.
    assert (0 < IZR ppd)%R by (apply IZR_lt; auto).
    assert (E : forall z : Z, ((IZR z - (IZR n - 1) / 2) / IZR ppd * IZR ppd + (IZR n - 1) / 2 = IZR z)%R)
      by (intros; field; lra).
    rewrite !E, !Zfloor_IZR. apply at0_in. split; lia.
  - split; cbn; auto.
  - split; [|split].
    + intros n ppd x y a b d Y X (R1 & R2 & R3 & R4 & V) Hr Hc. cbn.
      set (u := Zfloor _). set (v := Zfloor _).
      destruct (in_arrb d u v) eqn:B.
      * apply in_arrb_spec in B. rewrite (at0_in d) by auto. unfold in_arr in B.
        rewrite !at0_in by (unfold in_arr; lia). auto.
      * apply in_arrb_false in B. rewrite !at0_out; auto; try ring.
        -- intros [? ?]; apply B; split; lia.
        -- intros [? ?]; apply B; split; lia.
    + intros t. split; cbn; auto.
    + intros y x. split; cbn; auto.
  - split; intros; apply aeq_refl.
Qed.
Lemma nonsingular2 (A : Z -> Z -> R) : (A 0%Z 0%Z * A 1%Z 1%Z - A 0%Z 1%Z * A 1%Z 0%Z <> 0)%R -> nonsingular 2 A.
Proof.
  intros D.
  assert (S : forall x i, rsum (fun k => (A i k * x k)%R) 2 = (A i 0%Z * x 0%Z + A i 1%Z * x 1%Z)%R).
  { intros x i. change 2 with (0 + 1 + 1)%Z. rewrite !rsum_succ by lia. rewrite rsum_0 by lia. cbn. ring. }
  intros b. split.
  - exists (fun i : Z => if i =? 0 then ((A 1%Z 1%Z * b 0%Z - A 0%Z 1%Z * b 1%Z) / (A 0%Z 0%Z * A 1%Z 1%Z - A 0%Z 1%Z * A 1%Z 0%Z))%R
             else ((A 0%Z 0%Z * b 1%Z - A 1%Z 0%Z * b 0%Z) / (A 0%Z 0%Z * A 1%Z 1%Z - A 0%Z 1%Z * A 1%Z 0%Z))%R).
    intros i Hi. rewrite S. cbn.
    assert (i = 0 \/ i = 1) as [->| ->] by lia; field; auto.
  - intros x y Hx Hy.
    pose proof (Hx 0 ltac:(lia)) as X0. pose proof (Hx 1 ltac:(lia)) as X1.
    pose proof (Hy 0 ltac:(lia)) as Y0. pose proof (Hy 1 ltac:(lia)) as Y1.
    rewrite S in X0, X1, Y0, Y1.
    assert (E0 : ((A 0%Z 0%Z * A 1%Z 1%Z - A 0%Z 1%Z * A 1%Z 0%Z) * (x 0%Z - y 0%Z) = 0)%R).
    { transitivity (A 1%Z 1%Z * ((A 0%Z 0%Z * x 0%Z + A 0%Z 1%Z * x 1%Z) - (A 0%Z 0%Z * y 0%Z + A 0%Z 1%Z * y 1%Z)) -
        A 0%Z 1%Z * ((A 1%Z 0%Z * x 0%Z + A 1%Z 1%Z * x 1%Z) - (A 1%Z 0%Z * y 0%Z + A 1%Z 1%Z * y 1%Z)))%R; [ring|].
      rewrite X0, X1, Y0, Y1. ring. }
    assert (E1 : ((A 0%Z 0%Z * A 1%Z 1%Z - A 0%Z 1%Z * A 1%Z 0%Z) * (x 1%Z - y 1%Z) = 0)%R).
    { transitivity (A 0%Z 0%Z * ((A 1%Z 0%Z * x 0%Z + A 1%Z 1%Z * x 1%Z) - (A 1%Z 0%Z * y 0%Z + A 1%Z 1%Z * y 1%Z)) -
        A 1%Z 0%Z * ((A 0%Z 0%Z * x 0%Z + A 0%Z 1%Z * x 1%Z) - (A 0%Z 0%Z * y 0%Z + A 0%Z 1%Z * y 1%Z)))%R; [ring|].
      rewrite X0, X1, Y0, Y1. ring. }
    apply Rmult_integral in E0, E1.
    intros i Hi. assert (i = 0 \/ i = 1) as [->| ->] by lia; lra.
Qed.
Definition k_good : arr R := Arr 1 3 (fun _ q => if q =? 1 then 2%R else 1%R).
Lemma fit_example sp : exists A x, build_prefilter sp 1 2 k_good 1 = Ok A /\ nonsingular (sdim A) (sat A) /\
  resample_inf_func sp k_good 1 1 = Ok k_good /\ nr k_good mod 2 = 1 /\ nc k_good mod 2 = 1 /\
  point_symmetric k_good /\ fit_surf_to_dm solve_ref surf_bad A = Ok x.
Proof.
  assert (P1 : pos_real 1 = true) by (apply pos_real_iff; lra).
  assert (Rk : resample_inf_func sp k_good 1 1 = Ok k_good).
  { unfold resample_inf_func. rewrite P1. cbn [guard bind]. destruct (Req_EM_T 1 1); [auto|lra]. }
  assert (B : exists A, build_prefilter sp 1 2 k_good 1 = Ok A).
  { unfold build_prefilter. rewrite P1, Rk. cbn. eauto. }
  destruct B as [A B]. pose proof B as B'. apply build_prefilter_ok in B' as (_ & _ & _ & Dm & k & Ek & V).
  rewrite Rk in Ek. injection Ek as <-.
  destruct (fit_defined solve_ref surf_bad A Dm) as [x F].
  exists A, x. split; [auto|]. split; [|split; [auto|split; [reflexivity|split; [reflexivity|split; [|auto]]]]].
  - rewrite Dm. apply nonsingular2. rewrite !V by lia. cbn. lra.
  - intros p q [Hp Hq]. cbn in *. assert (q = 0 \/ q = 1 \/ q = 2) as [->|[->| ->]] by lia; reflexivity.
Qed.
