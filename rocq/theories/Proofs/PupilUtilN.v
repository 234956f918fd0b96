(** Percentile normalization. *)
From Coq Require Import ZArith Bool List Reals Lra Lia Sorted Permutation.
From Flocq Require Import Core.
From Verif.Base Require Import Py Arr Vec Sums Lstsq.
From Verif.Model Require Import Math Fits PupilUtil.
From Verif.Spec Require Import PupilUtilSpec.
From Verif.Proofs Require Import FitsP MathP.
Import ListNotations.
Open Scope Z_scope.

Lemma insert_perm v l : Permutation (insert v l) (v :: l).
Proof.
  induction l as [|u l IH]; cbn; auto. destruct (Rle_dec v u); auto.
  rewrite IH. apply perm_swap.
Qed.
Lemma insert_hd a v l : (a <= v)%R -> HdRel Rle a l -> HdRel Rle a (insert v l).
Proof. intros H Hl. destruct l as [|u l]; cbn; auto. destruct (Rle_dec v u); constructor; auto. inversion Hl; auto. Qed.
Lemma insert_sorted v l : Sorted Rle l -> Sorted Rle (insert v l).
Proof.
  induction 1 as [|u l S IH Hd]; cbn; [repeat constructor|]. destruct (Rle_dec v u) as [H|H].
  - constructor; [constructor; auto|constructor; auto].
  - constructor; auto. apply insert_hd; auto. lra.
Qed.
Lemma sort_perm l : Permutation (sort l) l.
Proof. induction l as [|v l IH]; cbn; auto. rewrite insert_perm, IH. auto. Qed.
Lemma sort_sorted l : Sorted Rle (sort l).
Proof. induction l as [|v l IH]; cbn; auto. apply insert_sorted; auto. Qed.
Lemma sorted_strong l : Sorted Rle l -> StronglySorted Rle l.
Proof. apply Sorted_StronglySorted. intros a b c; lra. Qed.
Lemma sorted_unique s : forall s', Sorted Rle s -> Sorted Rle s' -> Permutation s s' -> s = s'.
Proof.
  induction s as [|a s IH]; intros s' S S' P.
  - apply Permutation_nil in P. auto.
  - destruct s' as [|b s']; [apply Permutation_sym, Permutation_nil in P; discriminate|].
    pose proof (sorted_strong _ S) as T. pose proof (sorted_strong _ S') as T'.
    apply StronglySorted_inv in T as [_ F]. apply StronglySorted_inv in T' as [_ F'].
    rewrite Forall_forall in F, F'.
    assert (a = b).
    { assert (Ia : In a (b :: s')) by (apply (Permutation_in _ P); left; auto).
      assert (Ib : In b (a :: s)) by (apply (Permutation_in _ (Permutation_sym P)); left; auto).
      destruct Ia as [|Ia]; auto. destruct Ib as [|Ib]; auto. specialize (F _ Ib). specialize (F' _ Ia). lra. }
    subst b. f_equal. apply IH; [inversion S; auto|inversion S'; auto|]. eapply Permutation_cons_inv; eauto.
Qed.
Lemma sorted_nth s : Sorted Rle s -> forall i j, (i <= j)%nat -> (j < length s)%nat -> (nth i s 0 <= nth j s 0)%R.
Proof.
  intros S. apply sorted_strong in S. induction S as [|a s S IH F]; intros i j Hij Hj; cbn in *; [lia|].
  rewrite Forall_forall in F. destruct i as [|i], j as [|j]; try lia; try lra.
  - apply F. apply nth_In. lia.
  - apply IH; lia.
Qed.

Section Percentile.
Local Open Scope R_scope.
Lemma percentile_ok l q : l <> [] -> 0 <= q <= 100 -> is_percentile l q (percentile l q).
Proof.
  intros Hl Hq s P So. unfold percentile.
  rewrite <- (sorted_unique s (sort l) So (sort_sorted l)) by (rewrite sort_perm; auto).
  assert (Hn : (0 < length l)%nat) by (destruct l; [contradiction|cbn; lia]).
  set (n := length l) in *. rewrite minus_IZR, <- INR_IZR_INZ.
  assert (Hn1 : 1 <= INR n) by (apply (le_INR 1); lia).
  set (v := q / 100 * (INR n - 1)). assert (Hv : 0 <= v <= INR n - 1) by (unfold v; split; nra).
  pose proof (Zfloor_lb v) as F1. pose proof (Zfloor_ub v) as F2. set (k := Zfloor v) in *.
  assert (Hk : (0 <= k)%Z) by (apply Zfloor_lub; exact (proj1 Hv)).
  exists (Z.to_nat k), (v - IZR k).
  assert (Ik : INR (Z.to_nat k) = IZR k) by (rewrite INR_IZR_INZ, Z2Nat.id by auto; auto).
  split; [lra|]. split; [rewrite Ik; ring|].
  split. { apply INR_lt. rewrite Ik. lra. }
  assert (T : v - IZR k <> 0 -> (S (Z.to_nat k) < n)%nat).
  { intros H. assert (Z.to_nat k < n - 1)%nat; [|lia]. apply INR_lt. rewrite Ik, minus_INR by lia. cbn [INR]. lra. }
  split; [exact T|].
  destruct (Req_dec (v - IZR k) 0) as [->|N]; [ring|].
  replace (Z.to_nat (Z.min (k + 1) (Z.of_nat n - 1))) with (S (Z.to_nat k)) by (specialize (T N); lia). ring.
Qed.
Lemma percentile_unique l q v v' : is_percentile l q v -> is_percentile l q v' -> v = v'.
Proof.
  intros H H'. destruct (H (sort l) (sort_perm l) (sort_sorted l)) as (k & t & Ht & E & _ & _ & ->).
  destruct (H' (sort l) (sort_perm l) (sort_sorted l)) as (k' & t' & Ht' & E' & _ & _ & ->).
  assert (k = k').
  { destruct (Nat.lt_trichotomy k k') as [L|[L|L]]; auto; exfalso; apply (le_INR (S _)) in L; rewrite S_INR in L; lra. }
  subst k'. assert (t = t') by lra. subst. auto.
Qed.
Lemma nth_sorted_in (s l : list R) k : Permutation s l -> (k < length l)%nat -> In (nth k s 0) l.
Proof. intros P H. apply (Permutation_in _ P). apply nth_In. rewrite (Permutation_length P). auto. Qed.
Lemma percentile_bounds l q v lo hi : is_percentile l q v -> (forall x, In x l -> lo <= x <= hi) -> lo <= v <= hi.
Proof.
  intros H B. destruct (H (sort l) (sort_perm l) (sort_sorted l)) as (k & t & Ht & _ & Hk & Hk1 & ->).
  pose proof (B _ (nth_sorted_in _ _ k (sort_perm l) Hk)).
  destruct (Req_dec t 0) as [->|N]; [lra|].
  pose proof (B _ (nth_sorted_in _ _ (S k) (sort_perm l) (Hk1 N))). nra.
Qed.
Lemma percentile_0 l v : is_percentile l 0 v -> In v l /\ forall x, In x l -> v <= x.
Proof.
  intros H. destruct (H (sort l) (sort_perm l) (sort_sorted l)) as (k & t & Ht & E & Hk & _ & ->).
  replace (0 / 100 * (INR (length l) - 1)) with 0 in E by lra. pose proof (pos_INR k).
  assert (t = 0) by lra. subst t. assert (k = 0)%nat by (apply INR_eq; cbn; lra). subst k.
  replace ((1 - 0) * nth 0 (sort l) 0 + 0 * nth 1 (sort l) 0) with (nth 0 (sort l) 0) by ring.
  split; [apply nth_sorted_in; auto using sort_perm|]. intros x Ix.
  apply (Permutation_in _ (Permutation_sym (sort_perm l))) in Ix. apply In_nth with (d := 0) in Ix as (i & Hi & <-).
  apply sorted_nth; auto using sort_sorted. lia.
Qed.
Lemma percentile_100 l v : is_percentile l 100 v -> In v l /\ forall x, In x l -> x <= v.
Proof.
  intros H. destruct (H (sort l) (sort_perm l) (sort_sorted l)) as (k & t & Ht & E & Hk & _ & ->).
  replace (100 / 100 * (INR (length l) - 1)) with (INR (length l) - 1) in E by lra.
  assert (K : k = (length l - 1)%nat).
  { destruct (Nat.lt_trichotomy k (length l - 1)) as [L|[L|L]]; auto; [|lia]. exfalso.
    apply (le_INR (S _)) in L. rewrite S_INR, minus_INR in L by lia. cbn [INR] in L. lra. }
  assert (t = 0). { rewrite K, minus_INR in E by lia. cbn [INR] in E. lra. } subst t.
  replace ((1 - 0) * nth k (sort l) 0 + 0 * nth (S k) (sort l) 0) with (nth k (sort l) 0) by ring.
  split; [apply nth_sorted_in; auto using sort_perm|]. intros x Ix.
  apply (Permutation_in _ (Permutation_sym (sort_perm l))) in Ix. apply In_nth with (d := 0) in Ix as (i & Hi & <-).
  rewrite (Permutation_length (sort_perm l)) in Hi.
  apply sorted_nth; auto using sort_sorted; [lia|]. rewrite (Permutation_length (sort_perm l)). lia.
Qed.
Lemma percentile_mono l q q' v v' : is_percentile l q v -> is_percentile l q' v' -> (0 < length l)%nat -> q <= q' -> v <= v'.
Proof.
  intros H H' Hn Hq. pose proof (Permutation_length (sort_perm l)) as PL.
  pose proof (sorted_nth (sort l) (sort_sorted l)) as SN. rewrite PL in SN.
  destruct (H (sort l) (sort_perm l) (sort_sorted l)) as (k & t & Ht & E & Hk & Hk1 & ->).
  destruct (H' (sort l) (sort_perm l) (sort_sorted l)) as (k' & t' & Ht' & E' & Hk' & Hk1' & ->).
  assert (R : INR k + t <= INR k' + t').
  { rewrite <- E, <- E'. apply (le_INR 1) in Hn. cbn in Hn. apply Rmult_le_compat_r; lra. }
  set (s := sort l) in *.
  assert (Up : nth k' s 0 <= (1 - t') * nth k' s 0 + t' * nth (S k') s 0).
  { destruct (Req_dec t' 0) as [->|N]; [lra|]. pose proof (SN k' (S k') ltac:(lia) (Hk1' N)). nra. }
  destruct (Nat.lt_trichotomy k k') as [L|[L|L]].
  - apply Rle_trans with (nth k' s 0); auto.
    destruct (Req_dec t 0) as [->|N].
    + pose proof (SN k k' ltac:(lia) Hk'). lra.
    + pose proof (SN k k' ltac:(lia) Hk'). pose proof (SN (S k) k' ltac:(lia) Hk'). nra.
  - subst k'. assert (t <= t') by lra. destruct (Req_dec t' 0) as [->|N].
    + assert (t = 0) by lra. subst. lra.
    + pose proof (SN k (S k) ltac:(lia) (Hk1' N)). nra.
  - exfalso. apply (le_INR (S _)) in L. rewrite S_INR in L. lra.
Qed.
Lemma sorted_map (f : R -> R) l : (forall x y, x <= y -> f x <= f y) -> Sorted Rle l -> Sorted Rle (map f l).
Proof.
  intros Hf. induction 1 as [|a l S IH Hd]; cbn; [constructor|]. constructor; auto. destruct Hd; cbn; constructor; auto.
Qed.
Lemma percentile_affine l q v a b : 0 <= a -> is_percentile l q v -> is_percentile (map (fun x => a * x + b) l) q (a * v + b).
Proof.
  intros Ha H s P S. destruct (H (sort l) (sort_perm l) (sort_sorted l)) as (k & t & Ht & E & Hk & Hk1 & ->).
  assert (M : Sorted Rle (map (fun x => a * x + b) (sort l))) by (apply sorted_map; [intros; nra|apply sort_sorted]).
  rewrite (sorted_unique s (map (fun x => a * x + b) (sort l)) S M).
  2:{ rewrite P. apply Permutation_map, Permutation_sym, sort_perm. }
  exists k, t. rewrite map_length. split; [auto|]. split; [auto|]. split; [auto|]. split; [auto|].
  pose proof (Permutation_length (sort_perm l)) as PL.
  assert (N : forall i, (i < length l)%nat -> nth i (map (fun x => a * x + b) (sort l)) 0 = a * nth i (sort l) 0 + b).
  { intros i Hi. rewrite (nth_indep _ 0 (a * 0 + b)) by (rewrite map_length, PL; auto). apply (map_nth (fun x => a * x + b)). }
  rewrite N by auto. destruct (Req_dec t 0) as [->|Nt]; [ring|]. rewrite N by auto. ring.
Qed.
End Percentile.

Lemma in_values image mask x : In x (values_where image mask) <->
  exists i j, in_arr image i j /\ at2 mask i j = 1%R /\ at2 image i j = x.
Proof.
  unfold values_where. rewrite in_map_iff. split.
  - intros ([i j] & <- & I). apply filter_In in I as [I M]. apply in_indices in I. cbn [fst snd] in *.
    exists i, j. split; [exact I|]. destruct Req_EM_T; [auto|discriminate].
  - intros (i & j & I & M & <-). exists (i, j). split; [auto|]. apply filter_In. split; [apply in_indices; exact I|].
    cbn [fst snd]. destruct Req_EM_T; auto.
Qed.
Lemma zero_one_dec mask : forallb (fun v => if Req_EM_T v 0 then true else if Req_EM_T v 1 then true else false) (elements mask) = true
  <-> zero_one mask.
Proof.
  rewrite forallb_forall. unfold elements. split.
  - intros H i j I. specialize (H (at2 mask i j)). destruct (Req_EM_T (at2 mask i j) 0); auto.
    destruct (Req_EM_T (at2 mask i j) 1); auto. discriminate H.
    apply in_map_iff. exists (i, j). split; auto. apply in_indices. exact I.
  - intros H v I. apply in_map_iff in I as ([i j] & <- & I). apply in_indices in I. cbn [fst snd] in *.
    destruct (H i j I) as [->| ->].
    + destruct (Req_EM_T 0 0); auto.
    + destruct (Req_EM_T 1 0); auto. destruct (Req_EM_T 1 1); auto.
Qed.
Lemma norm_select image mask : same_shape image mask = true ->
  select (amap (fun v => if Req_EM_T v 1 then true else false) mask) image = values_where image mask.
Proof. intros _. reflexivity. Qed.
Lemma mask_sum_zero mask : zero_one mask ->
  (sum_list (elements mask) = 0%R <-> forall i j, in_arr mask i j -> at2 mask i j = 0%R).
Proof.
  intros Z. split.
  - intros H i j I. assert (N : forall v, In v (elements mask) -> (0 <= v)%R).
    { intros v Iv. apply in_map_iff in Iv as ([a b] & <- & Ib). apply in_indices in Ib. cbn [fst snd] in *.
      destruct (Z a b Ib) as [->| ->]; lra. }
    apply (sum_list_zero _ N H). apply in_map_iff. exists (i, j). split; auto. apply in_indices. exact I.
  - intros H. unfold elements. rewrite sum_list_lsum. apply lsum_all_zero. intros [i j] I. apply in_indices in I. apply H. exact I.
Qed.
Lemma norm_ok image mask q v : compute_norm_factor image mask q = Ok v <->
  same_shape image mask = true /\ zero_one mask /\ (0 <= q <= 100)%R /\ values_where image mask <> [] /\
  is_percentile (values_where image mask) q v.
Proof.
  unfold compute_norm_factor. split.
  - intros H. destruct (same_shape image mask) eqn:Sh; [|discriminate]. cbn [guard bind] in H.
    destruct (forallb _ (elements mask)) eqn:F; [|discriminate]. apply zero_one_dec in F. cbn [guard bind] in H.
    destruct (Rltb q 0) eqn:Q0; [discriminate|]. destruct (Rltb 100 q) eqn:Q1; [discriminate|].
    apply Rltb_false in Q0. apply Rltb_false in Q1. cbn [guard bind negb orb] in H.
    destruct (Req_EM_T (sum_list (elements mask)) 0) as [E|E]; [discriminate|]. injection H as <-.
    change (select _ image) with (values_where image mask).
    assert (Nv : values_where image mask <> []).
    { intros V. apply E. apply mask_sum_zero; auto. intros i j I. destruct (F i j I) as [|O]; auto. exfalso.
      assert (I' : in_arr image i j). { unfold same_shape in Sh. apply andb_prop in Sh as [A B]. apply Z.eqb_eq in A, B. unfold in_arr in *. lia. }
      assert (In (at2 image i j) (values_where image mask)) as J by (apply in_values; exists i, j; auto). rewrite V in J. destruct J. }
    repeat split; auto; try lra. apply percentile_ok; auto.
  - intros (Sh & Z & Q & N & P). rewrite Sh. cbn [guard bind]. rewrite (proj2 (zero_one_dec mask) Z). cbn [guard bind].
    rewrite (proj2 (Rltb_false q 0)) by lra. rewrite (proj2 (Rltb_false 100 q)) by lra. cbn [guard bind negb orb].
    destruct (Req_EM_T (sum_list (elements mask)) 0) as [E|E].
    + exfalso. apply N. rewrite mask_sum_zero in E by auto. destruct (values_where image mask) as [|x l] eqn:V; auto. exfalso.
      assert (J : In x (values_where image mask)) by (rewrite V; left; auto). apply in_values in J as (i & j & I & M & _).
      assert (I' : in_arr mask i j). { unfold same_shape in Sh. apply andb_prop in Sh as [A B]. apply Z.eqb_eq in A, B. unfold in_arr in *. lia. }
      specialize (E i j I'). lra.
    + change (select _ image) with (values_where image mask). f_equal.
      eapply percentile_unique; [|exact P]. apply percentile_ok; auto.
Qed.
Lemma norm_err image mask q e : compute_norm_factor image mask q = Err e <->
  e = TypeError /\ (same_shape image mask = false \/ ~ zero_one mask \/ (q < 0 \/ 100 < q)%R \/
    forall i j, in_arr mask i j -> at2 mask i j = 0%R).
Proof.
  split.
  - intros H. assert (E : e = TypeError).
    { revert H. unfold compute_norm_factor. destruct (same_shape image mask); [|intros [=]; auto].
      destruct (forallb _ _); [|intros [=]; auto]. destruct (Rltb q 0 || Rltb 100 q); [intros [=]; auto|]. cbn.
      destruct Req_EM_T; [intros [=]; auto|discriminate]. }
    split; auto. subst e. unfold compute_norm_factor in H.
    destruct (same_shape image mask) eqn:Sh; [|auto]. right. cbn [guard bind] in H.
    destruct (forallb _ (elements mask)) eqn:F.
    2:{ left. rewrite <- zero_one_dec, F. discriminate. }
    apply zero_one_dec in F. right. cbn [guard bind] in H.
    destruct (Rltb q 0) eqn:Q0; [apply Rltb_iff in Q0; auto|]. destruct (Rltb 100 q) eqn:Q1; [apply Rltb_iff in Q1; auto|].
    cbn [guard bind negb orb] in H. right. destruct Req_EM_T as [E|]; [|discriminate]. apply mask_sum_zero; auto.
  - intros [-> H]. destruct (compute_norm_factor image mask q) as [v|e] eqn:E.
    + exfalso. apply norm_ok in E as (Sh & Z & Q & N & _). destruct H as [H|[H|[H|H]]]; [congruence|auto|lra|].
      apply N. destruct (values_where image mask) as [|x l] eqn:V; auto. exfalso.
      assert (J : In x (values_where image mask)) by (rewrite V; left; auto). apply in_values in J as (i & j & I & M & _).
      assert (I' : in_arr mask i j). { unfold same_shape in Sh. apply andb_prop in Sh as [A B]. apply Z.eqb_eq in A, B. unfold in_arr in *. lia. }
      specialize (H i j I'). lra.
    + f_equal. revert E. unfold compute_norm_factor. destruct (same_shape image mask); [|intros [=]; auto].
      destruct (forallb _ _); [|intros [=]; auto]. destruct (Rltb q 0 || Rltb 100 q); [intros [=]; auto|]. cbn.
      destruct Req_EM_T; [intros [=]; auto|discriminate].
Qed.
Lemma values_affine image mask a b : values_where (amap (fun x => a * x + b)%R image) mask = map (fun x => a * x + b)%R (values_where image mask).
Proof. unfold values_where. cbn [nr nc at2 amap]. rewrite map_map. reflexivity. Qed.
Lemma norm_affine image mask q v a b : (0 <= a)%R -> compute_norm_factor image mask q = Ok v ->
  compute_norm_factor (amap (fun x => a * x + b)%R image) mask q = Ok (a * v + b)%R.
Proof.
  intros Ha H. apply norm_ok in H as (Sh & Z & Q & N & P). apply norm_ok. split; [exact Sh|]. split; [auto|]. split; [auto|].
  rewrite values_affine. split; [intros E; apply map_eq_nil in E; auto|]. apply percentile_affine; auto.
Qed.
Lemma norm_bounds image mask q v : compute_norm_factor image mask q = Ok v ->
  (exists i j, in_arr image i j /\ at2 mask i j = 1%R /\ (at2 image i j <= v)%R) /\
  (exists i j, in_arr image i j /\ at2 mask i j = 1%R /\ (v <= at2 image i j)%R) /\
  forall lo hi, (forall i j, in_arr image i j -> at2 mask i j = 1%R -> (lo <= at2 image i j <= hi)%R) -> (lo <= v <= hi)%R.
Proof.
  intros E. apply norm_ok in E. destruct E as (S1 & Z1 & Q & NE & P).
  assert (L : (0 < length (values_where image mask))%nat) by (destruct (values_where image mask); cbn; [congruence|lia]).
  split; [|split].
  - pose proof (percentile_ok _ 0 NE ltac:(lra)) as P0. pose proof (percentile_mono _ _ _ _ _ P0 P L ltac:(lra)) as M.
    destruct (percentile_0 _ _ P0) as [I _]. apply in_values in I. destruct I as (i & j & I & Hm & Ev). exists i, j. rewrite Ev. auto.
  - pose proof (percentile_ok _ 100 NE ltac:(lra)) as P0. pose proof (percentile_mono _ _ _ _ _ P P0 L ltac:(lra)) as M.
    destruct (percentile_100 _ _ P0) as [I _]. apply in_values in I. destruct I as (i & j & I & Hm & Ev). exists i, j. rewrite Ev. auto.
  - intros lo hi H. apply (percentile_bounds _ _ _ lo hi P). intros x I. apply in_values in I. destruct I as (i & j & I & Hm & <-). auto.
Qed.
Lemma norm_ends image mask v q : compute_norm_factor image mask q = Ok v -> q = 0%R \/ q = 100%R ->
  (exists i j, in_arr image i j /\ at2 mask i j = 1%R /\ at2 image i j = v) /\
  forall i j, in_arr image i j -> at2 mask i j = 1%R -> (q = 0 -> v <= at2 image i j)%R /\ (q = 100 -> at2 image i j <= v)%R.
Proof.
  intros E Q. apply norm_ok in E. destruct E as (S1 & Z1 & Q1 & NE & P). destruct Q as [-> | ->].
  - apply percentile_0 in P. destruct P as [I P]. apply in_values in I. destruct I as (i & j & I & Hm & <-). split; eauto.
    intros i' j' I' Hm'. split; [|lra]. intros _. apply P. apply in_values. eauto.
  - apply percentile_100 in P. destruct P as [I P]. apply in_values in I. destruct I as (i & j & I & Hm & <-). split; eauto.
    intros i' j' I' Hm'. split; [lra|]. intros _. apply P. apply in_values. eauto.
Qed.
Lemma norm_mono image mask q q' v v' : compute_norm_factor image mask q = Ok v ->
  compute_norm_factor image mask q' = Ok v' -> (q <= q')%R -> (v <= v')%R.
Proof.
  intros E E' H. apply norm_ok in E. apply norm_ok in E'. destruct E as (_ & _ & _ & NE & P). destruct E' as (_ & _ & _ & _ & P').
  apply (percentile_mono _ _ _ _ _ P P'); auto. destruct (values_where image mask); cbn; [congruence|lia].
Qed.
