(** Gain maps of arbitrary calibration data. *)
From Coq Require Import ZArith Bool List Reals Lra Lia Sorted.
From Verif.Base Require Import Py Arr.
From Verif.Model Require Import Fits GainMap.
From Verif.Spec Require Import GainMapSpec.
From Verif.Proofs Require Import FitsP GainMapP.
Import ListNotations.
Open Scope Z_scope.

Definition lt_fst (p q : R * R) : Prop := (fst p < fst q)%R.
Lemma sort_sorted l : StronglySorted lt_fst l -> sort_pts l = l.
Proof.
  induction l as [|p l IH]; intros S; cbn; [reflexivity|]. inversion S as [|? ? S' F]; subst. rewrite IH by auto.
  destruct l as [|q l]; cbn; [reflexivity|]. inversion F as [|? ? H _]; subst. unfold lt_fst in H.
  rewrite (proj2 (Rleb_iff _ _)) by lra. reflexivity.
Qed.
Lemma search_split l x : StronglySorted lt_fst l ->
  (forall m, (m < searchsorted l x)%nat -> (fst (nth m l (0, 0)%R) < x)%R) /\
  (forall m, (searchsorted l x <= m < length l)%nat -> (x <= fst (nth m l (0, 0)%R))%R).
Proof.
  induction l as [|p l IH]; intros S; unfold searchsorted in *; cbn [filter].
  - split; cbn; intros m H; lia.
  - inversion S as [|? ? S' F]; subst. specialize (IH S') as [A B].
    destruct (Rltb (fst p) x) eqn:E; [apply Rltb_iff in E|apply Rltb_false in E].
    + cbn [length]. split; intros m H; destruct m as [|m]; cbn [nth]; try lia; auto; [apply A; lia|apply B; lia].
    + assert (Z0 : filter (fun p => Rltb (fst p) x) l = []).
      { destruct (filter _ l) as [|q r] eqn:G; [reflexivity|]. exfalso.
        assert (I : In q (filter (fun p => Rltb (fst p) x) l)) by (rewrite G; left; reflexivity).
        apply filter_In in I as [I1 I2]. apply Rltb_iff in I2. rewrite Forall_forall in F. specialize (F q I1). unfold lt_fst in F. lra. }
      rewrite Z0. cbn [length]. split; intros m H; [lia|]. destruct m as [|m]; cbn [nth]; [auto|].
      rewrite Forall_forall in F. assert (I : In (nth m l (0, 0)%R) l) by (apply nth_In; cbn in H; lia).
      specialize (F _ I). unfold lt_fst in F. lra.
Qed.
Lemma sorted_nth l a b : StronglySorted lt_fst l -> (a < b < length l)%nat -> (fst (nth a l (0, 0)%R) < fst (nth b l (0, 0)%R))%R.
Proof.
  revert a b. induction l as [|p l IH]; intros a b S H; cbn in H; [lia|]. inversion S as [|? ? S' F]; subst.
  destruct b as [|b]; [lia|]. destruct a as [|a]; cbn [nth].
  - rewrite Forall_forall in F. apply F. apply nth_In. lia.
  - apply IH; auto. lia.
Qed.
Lemma lin_interp_line l k x : StronglySorted lt_fst l -> (k + 2 <= length l)%nat ->
  (k = O \/ (fst (nth k l (0, 0)%R) <= x)%R) -> (length l = k + 2 \/ (x <= fst (nth (k + 1) l (0, 0)%R))%R)%nat ->
  lin_interp l x = Some (line_through (fst (nth k l (0, 0)%R)) (snd (nth k l (0, 0)%R))
    (fst (nth (k + 1) l (0, 0)%R)) (snd (nth (k + 1) l (0, 0)%R)) x).
Proof.
  intros S L Lo Hi. unfold lin_interp. rewrite sort_sorted by auto.
  destruct (length l) as [|[|n]] eqn:E; [lia|lia|]. rewrite <- E in *.
  destruct (search_split l x S) as [A B]. set (s := searchsorted l x) in *.
  set (hi := Nat.min (Nat.max s 1) (length l - 1)).
  assert (U : (hi <= k + 1)%nat).
  { destruct Hi as [Hi|Hi]; [unfold hi; lia|]. destruct (Nat.le_gt_cases s (k + 1)); [unfold hi; lia|].
    specialize (A (k + 1)%nat ltac:(lia)). lra. }
  pose proof (sorted_nth l k (k + 1) S ltac:(lia)) as N.
  destruct (Nat.eq_dec hi (k + 1)) as [W|W].
  - rewrite W. replace (k + 1 - 1)%nat with k by lia. f_equal. unfold line_through. field. lra.
  - assert (K : (0 < k)%nat) by (unfold hi in *; lia). assert (s <= k)%nat by (unfold hi in *; lia).
    destruct Lo as [Lo|Lo]; [lia|]. specialize (B k ltac:(lia)) as B1.
    assert (X : x = fst (nth k l (0, 0)%R)) by lra.
    assert (V : hi = k).
    { destruct (Nat.eq_dec s k) as [|Q]; [unfold hi; lia|].
      specialize (B (k - 1)%nat ltac:(lia)). pose proof (sorted_nth l (k - 1) k S ltac:(lia)). lra. }
    rewrite V. pose proof (sorted_nth l (k - 1) k S ltac:(lia)) as N'. f_equal. unfold line_through. rewrite X. field. lra.
Qed.
Lemma sorted_of_nth (l : list (R * R)) : (forall a b, (a < b < length l)%nat -> (fst (nth a l (0, 0)%R) < fst (nth b l (0, 0)%R))%R) ->
  StronglySorted lt_fst l.
Proof.
  induction l as [|p l IH]; intros H; constructor.
  - apply IH. intros a b Hab. apply (H (S a) (S b)). cbn. lia.
  - rewrite Forall_forall. intros q I. destruct (In_nth _ _ (0, 0)%R I) as (m & Hm & <-).
    apply (H O (S m)). cbn. lia.
Qed.
Lemma nth_combine (a b : list R) k : length a = length b -> nth k (combine a b) (0, 0)%R = (nth k a 0%R, nth k b 0%R).
Proof. intros L. apply combine_nth. auto. Qed.
Lemma gainmap_line v c cmd n : calibration v c n n -> 3 <= len v -> nr cmd = n -> nc cmd = n ->
  exists out, compute_gainmap cmd (F3 c) (F1 v) = Ok out /\ nr out = n /\ nc out = n /\
   forall i j k, 0 <= i < n -> 0 <= j < n -> in_interval v k (at2 cmd i j) ->
    at2 out i j = Some (line_through (mid_command v k) (mean_slope v c i j k)
                         (mid_command v (k + 1)) (mean_slope v c i j (k + 1)) (at2 cmd i j)).
Proof.
  intros (S & Hn & Hr & Hc) Hl Rn Cn. unfold compute_gainmap.
  destruct (diff_mean_ok v S ltac:(lia)) as (dm & E & L1 & L2 & V). rewrite E. cbn [bind].
  destruct (gain_cube_ok v c S ltac:(lia) Hn) as (g & Eg & Gn & Gr & Gc & Gv). rewrite Eg. cbn [bind].
  rewrite (proj2 (Z.eqb_eq (nr cmd) (c_cols g))), (proj2 (Z.eqb_eq (nc cmd) (c_rows g))) by lia. cbn [guard bind].
  rewrite Rn, Cn.
  destruct (fill2_ok None n n (fun i j => do y <- profile g i j; check 0 <? len y else IndexError; Ok (lin_interp (combine (snd dm) y) (at2 cmd i j)))
    (fun i j => lin_interp (combine (snd dm) (map (fun k => at3 g k i j) (zrange (c_n g)))) (at2 cmd i j))) as (out & Eo & Ro & Co & Vo).
  { intros i j Hi Hj. rewrite profile_ok by lia. cbn [bind].
    rewrite (proj2 (Z.ltb_lt 0 _)) by (rewrite len_map_zrange; lia). reflexivity. }
  exists out. split; [exact Eo|]. split; [exact Ro|]. split; [exact Co|].
  intros i j k Hi Hj (Hk & H1 & H2). rewrite Vo by auto.
  assert (Len : length (snd dm) = length (map (fun k => at3 g k i j) (zrange (c_n g)))).
  { rewrite map_length. apply Nat2Z.inj. rewrite length_zrange by lia. unfold len in *. lia. }
  set (l := combine (snd dm) (map (fun k => at3 g k i j) (zrange (c_n g)))).
  assert (Ll : Z.of_nat (length l) = len v - 1).
  { unfold l. rewrite combine_length, <- Len, Nat.min_id. unfold len in *. lia. }
  assert (P : forall m, 0 <= m < len v - 1 -> nth (Z.to_nat m) l (0, 0)%R = (mid_command v m, mean_slope v c i j m)).
  { intros m Hm. unfold l. rewrite nth_combine by auto. destruct (V m Hm) as (_ & _ & M & _).
    fold (nthR (snd dm) m). rewrite M. rewrite nth_zrange by lia. rewrite Gv by lia. reflexivity. }
  assert (Sl : StronglySorted lt_fst l).
  { apply sorted_of_nth. intros a b Hab.
    rewrite <- (Nat2Z.id a), <- (Nat2Z.id b), !P by lia. cbn [fst]. unfold mid_command, command.
    pose proof (ascending_nth v (Z.of_nat a) (Z.of_nat b) S ltac:(lia) ltac:(lia)).
    pose proof (ascending_nth v (Z.of_nat a + 1) (Z.of_nat b + 1) S ltac:(lia) ltac:(lia)). lra. }
  rewrite (lin_interp_line l (Z.to_nat k) _ Sl).
  - replace (Z.to_nat k + 1)%nat with (Z.to_nat (k + 1)) by lia. rewrite !P by lia. reflexivity.
  - lia.
  - rewrite P by lia. cbn [fst]. destruct H1 as [->|H1]; [left; reflexivity|right; exact H1].
  - replace (Z.to_nat k + 1)%nat with (Z.to_nat (k + 1)) by lia. rewrite P by lia. cbn [fst].
    destruct H2 as [H2|H2]; [left; lia|right; exact H2].
Qed.
(** Every command belongs to some interval. *)
Lemma interval_exists v x : 3 <= len v -> exists k, in_interval v k x.
Proof.
  intros H.
  assert (P : forall m, (Z.of_nat m <= len v - 3) -> (exists k, in_interval v k x) \/ (Z.of_nat m = 0 \/ (mid_command v (Z.of_nat m) <= x)%R)).
  { induction m as [|m IH]; intros Hm; [right; left; reflexivity|].
    destruct (IH ltac:(lia)) as [K|K]; [left; exact K|].
    destruct (Rle_lt_dec x (mid_command v (Z.of_nat m + 1))) as [L|L].
    - left. exists (Z.of_nat m). split; [lia|]. split; [exact K|right; exact L].
    - right. right. replace (Z.of_nat (S m)) with (Z.of_nat m + 1) by lia. lra. }
  destruct (P (Z.to_nat (len v - 3)) ltac:(lia)) as [K|K]; [exact K|]. rewrite Z2Nat.id in K by lia.
  exists (len v - 3). split; [lia|]. split; [exact K|left; reflexivity].
Qed.
Lemma gainmap_rejects cmd cubeFile vecFile :
  (forall v, vecFile = F1 v -> ~ NoDup v \/ len v = 0) \/
  (exists v, vecFile = F1 v /\ forall c, cubeFile = F3 c -> c_n c <> len v \/ nr cmd <> c_cols c \/ nc cmd <> c_rows c) ->
  compute_gainmap cmd cubeFile vecFile = Err ValueError.
Proof.
  intros H. unfold compute_gainmap, gain_cube.
  assert (D : (exists e, diff_and_mean vecFile = Err e /\ e = ValueError) \/
    exists v dm, vecFile = F1 v /\ NoDup v /\ 0 < len v /\ diff_and_mean vecFile = Ok dm /\ len (fst dm) = len v - 1).
  { unfold diff_and_mean. destruct vecFile as [v| | |]; cbn [as_vector bind]; try (left; eexists; split; reflexivity).
    destruct (verify_unique v) as [[]|e] eqn:U; cbn [bind].
    - destruct (verify_presorted v) as [[]|e] eqn:P; cbn [bind].
      + destruct (Z.leb_spec 0 (len v - 1)) as [Q|Q]; cbn [guard bind]; [right|left; eexists; split; reflexivity].
        exists v. eexists. split; [reflexivity|]. split; [apply verify_unique_spec; exact U|]. split; [lia|].
        split; [reflexivity|]. cbn [fst]. rewrite len_map_zrange. lia.
      + left. exists e. split; [reflexivity|]. unfold verify_presorted, guard in P. destruct (allclose _ _ _ _); congruence.
    - left. exists e. split; [reflexivity|]. unfold verify_unique, guard in U. destruct (Nat.eqb _ _); congruence. }
  destruct D as [(e & E & ->)|(v & dm & Ev & N & Lv & E & L)]; rewrite E; cbn [bind]; [reflexivity|].
  destruct H as [H|(v' & Ev' & H)]; [exfalso; destruct (H v Ev) as [K|K]; [exact (K N)|lia]|].
  assert (v' = v) as -> by congruence.
  destruct cubeFile as [| |c|]; cbn [as_cube bind]; try reflexivity.
  destruct (Z.eqb_spec (len (fst dm) + 1) (c_n c)) as [Q|Q]; cbn [guard bind c_cols c_rows]; [|reflexivity].
  destruct (Z.eqb_spec (nr cmd) (c_cols c)) as [Q1|Q1]; cbn [guard bind]; [|reflexivity].
  destruct (Z.eqb_spec (nc cmd) (c_rows c)) as [Q2|Q2]; cbn [guard bind]; [|reflexivity].
  exfalso. destruct (H c eq_refl) as [K|[K|K]]; lia.
Qed.

(** Too few calibration commands. *)
Lemma gainmap_two v c cmd n : calibration v c n n -> len v = 2 -> nr cmd = n -> nc cmd = n ->
  exists out, compute_gainmap cmd (F3 c) (F1 v) = Ok out /\ nr out = n /\ nc out = n /\ forall i j, 0 <= i < n -> 0 <= j < n -> at2 out i j = None.
Proof.
  intros (S & Hn & Hr & Hc) Hl Rn Cn. unfold compute_gainmap.
  destruct (diff_mean_ok v S ltac:(lia)) as (dm & E & L1 & L2 & V). rewrite E. cbn [bind].
  destruct (gain_cube_ok v c S ltac:(lia) Hn) as (g & Eg & Gn & Gr & Gc & Gv). rewrite Eg. cbn [bind].
  rewrite (proj2 (Z.eqb_eq (nr cmd) (c_cols g))), (proj2 (Z.eqb_eq (nc cmd) (c_rows g))) by lia. cbn [guard bind].
  rewrite Rn, Cn. apply fill2_ok. intros i j Hi Hj. rewrite profile_ok by lia. cbn [bind].
  rewrite (proj2 (Z.ltb_lt 0 _)) by (rewrite len_map_zrange; lia). cbn [guard bind]. f_equal.
  rewrite Gn, Hl. change (zrange (2 - 1)) with [0]. cbn [map]. destruct (snd dm) as [|x [|y l]]; reflexivity.
Qed.
Lemma gainmap_one v c cmd n : calibration v c n n -> len v = 1 -> 0 < n -> nr cmd = n -> nc cmd = n ->
  compute_gainmap cmd (F3 c) (F1 v) = Err IndexError.
Proof.
  intros (S & Hn & Hr & Hc) Hl P Rn Cn. unfold compute_gainmap.
  destruct (diff_mean_ok v S ltac:(lia)) as (dm & E & L1 & L2 & V). rewrite E. cbn [bind].
  destruct (gain_cube_ok v c S ltac:(lia) Hn) as (g & Eg & Gn & Gr & Gc & Gv). rewrite Eg. cbn [bind].
  rewrite (proj2 (Z.eqb_eq (nr cmd) (c_cols g))), (proj2 (Z.eqb_eq (nc cmd) (c_rows g))) by lia. cbn [guard bind].
  unfold fill2. set (f := fun i j => _). destruct (first_err (col_major (nr cmd) (nc cmd)) f) as [e|] eqn:F.
  - apply first_err_some in F as (i & j & I & F). rewrite in_col_major in I. unfold f in F. rewrite profile_ok in F by lia.
    cbn [bind] in F. rewrite Gn, Hl in F. cbn in F. congruence.
  - exfalso. rewrite first_err_none in F. destruct (F 0 0) as [o K]; [rewrite in_col_major; lia|].
    unfold f in K. rewrite profile_ok in K by lia. cbn [bind] in K. rewrite Gn, Hl in K. discriminate.
Qed.
