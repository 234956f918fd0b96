(** Proofs about thresholding, extremum fits, centroids, quadrant balance and plane removal. *)
From Coq Require Import ZArith Bool List Reals Lra Lia Psatz String.
From Flocq Require Import Core.
From Verif.Base Require Import Py Arr Vec Sums Lstsq.
From Verif.Model Require Import Math Noll Fits.
From Verif.Spec Require Import FitsSpec.
From Verif.Proofs Require Import ZernP.
Import ListNotations.
Open Scope Z_scope.

Lemma filter_all {P} (f : P -> bool) l : (forall p, f p = true) -> filter f l = l.
Proof. intros H. induction l as [|x l IH]; cbn; auto. rewrite H, IH. reflexivity. Qed.
Lemma lsum_indices n m (f : Z -> Z -> R) : lsum (fun p => f (fst p) (snd p)) (indices n m) = rsum2 f n m.
Proof.
  pose proof (filter_indices_sum (afull n m 1%R) f) as H. unfold nonzero_points in H. cbn [nr nc afull at2] in H.
  transitivity (lsum (fun p => f (fst p) (snd p))
    (filter (fun _ : Z * Z => if Req_EM_T 1 0 then false else true) (indices n m))).
  - rewrite filter_all; auto. intros. destruct (Req_EM_T 1 0); [lra|auto].
  - rewrite H. apply rsum2_ext. intros. destruct (Req_EM_T 1 0); [lra|auto].
Qed.
Lemma sum_list_lsum {P} (f : P -> R) l : sum_list (map f l) = lsum f l.
Proof. induction l as [|x l IH]; cbn; auto. unfold sum_list in IH. rewrite IH. reflexivity. Qed.
Lemma filter_length_lsum {P} (f : P -> bool) l : INR (List.length (filter f l)) = lsum (fun p => if f p then 1 else 0)%R l.
Proof.
  induction l as [|x l IH]; [reflexivity|]. cbn [filter lsum]. destruct (f x).
  - cbn [List.length]. rewrite S_INR, IH. ring.
  - rewrite IH. ring.
Qed.

(** ** ampthresh *)
Lemma list_min_le d l v : In v (d :: l) -> (list_min d l <= v)%R.
Proof.
  unfold list_min. induction l as [|x l IH]; cbn.
  - intros [->|[]]. lra.
  - intros [->|[->|H]].
    + eapply Rle_trans; [apply Rmin_r|]. apply IH. left; auto.
    + apply Rmin_l.
    + eapply Rle_trans; [apply Rmin_r|]. apply IH. right; auto.
Qed.
Lemma list_min_in d l : In (list_min d l) (d :: l).
Proof.
  unfold list_min. induction l as [|x l IH]; cbn; auto.
  assert (C : forall y, Rmin x y = x \/ Rmin x y = y) by (intros y; unfold Rmin; destruct (Rle_dec x y); auto).
  destruct (C (fold_right Rmin d l)) as [E|E]; rewrite E; auto. destruct IH; auto.
Qed.
Lemma list_max_ge d l v : In v (d :: l) -> (v <= list_max d l)%R.
Proof.
  unfold list_max. induction l as [|x l IH]; cbn.
  - intros [->|[]]. lra.
  - intros [->|[->|H]].
    + eapply Rle_trans; [|apply Rmax_r]. apply IH. left; auto.
    + apply Rmax_l.
    + eapply Rle_trans; [|apply Rmax_r]. apply IH. right; auto.
Qed.
Lemma list_max_in d l : In (list_max d l) (d :: l).
Proof.
  unfold list_max. induction l as [|x l IH]; cbn; auto.
  assert (C : forall y, Rmax x y = x \/ Rmax x y = y) by (intros y; unfold Rmax; destruct (Rle_dec x y); auto).
  destruct (C (fold_right Rmax d l)) as [E|E]; rewrite E; auto. destruct IH; auto.
Qed.
Lemma Rltb_iff x y : Rltb x y = true <-> (x < y)%R.
Proof. unfold Rltb. destruct (Rlt_dec x y); split; auto; discriminate. Qed.
Lemma Rleb_iff x y : Rleb x y = true <-> (x <= y)%R.
Proof. unfold Rleb. destruct (Rle_dec x y); split; auto; discriminate. Qed.
Lemma Rltb_false x y : Rltb x y = false <-> (y <= x)%R.
Proof. unfold Rltb. destruct (Rlt_dec x y); split; auto; try discriminate; intros; lra. Qed.
Lemma Rleb_false x y : Rleb x y = false <-> (y < x)%R.
Proof. unfold Rleb. destruct (Rle_dec x y); split; auto; try discriminate; intros; lra. Qed.

Lemma bin_count_pixels a lo hi n k : is_max a hi -> 0 < n -> (lo < hi)%R -> 0 <= k < n ->
  pixels_with a (in_bin lo hi n k) (IZR (bin_count lo hi n (elements a) k)).
Proof.
  intros [_ M] Hn Hl Hk.
  set (t := fun v => Rleb (bin_edge lo hi n k) v && (if k =? n - 1 then Rleb v hi else Rltb v (bin_edge lo hi n (k + 1)))).
  exists (fun i j => if t (at2 a i j) then 1%R else 0%R). split.
  - intros i j B.
    assert (T : t (at2 a i j) = true <-> in_bin lo hi n k (at2 a i j)).
    { unfold t, in_bin. rewrite andb_true_iff, Rleb_iff. unfold bin_edge. rewrite plus_IZR.
      destruct (Z.eqb_spec k (n - 1)) as [E|E].
      - rewrite Rleb_iff. assert (L : ((lo + (IZR k + 1) * (hi - lo) / IZR n) = hi)%R).
        { assert (0 < IZR n)%R by (apply IZR_lt; auto). rewrite E, minus_IZR. field. lra. }
        split; intros [H1 H2]; split; auto.
        destruct H2 as [H2|H2]; [left; lra|right; auto].
      - rewrite Rltb_iff. split; intros [H1 H2]; split; auto.
        destruct H2 as [H2|[H2 _]]; [auto|lia]. }
    destruct (t (at2 a i j)); split; intros H; auto; exfalso.
    + apply H, T; auto.
    + apply T in H. discriminate.
  - unfold bin_count. fold t. rewrite <- INR_IZR_INZ, filter_length_lsum. unfold elements.
    rewrite lsum_map. apply (lsum_indices (nr a) (nc a) (fun i j => if t (at2 a i j) then 1%R else 0%R)).
Qed.
Lemma pixels_with_unique a P c c' : pixels_with a P c -> pixels_with a P c' -> c = c'.
Proof.
  intros (f & F & ->) (g & G & ->). apply rsum2_ext. intros i j Hi Hj.
  destruct (F i j (conj Hi Hj)) as [F1 F2], (G i j (conj Hi Hj)) as [G1 G2].
  destruct (Classical_Prop.classic (P (at2 a i j))) as [H|H].
  - rewrite F1, G1; auto.
  - rewrite F2, G2; auto.
Qed.

Definition count_of (a : arr R) (n : Z) : Z -> Z :=
  match elements a with
  | [] => fun _ => 0
  | v0 :: vs => bin_count (list_min v0 vs) (list_max v0 vs) n (v0 :: vs)
  end.
Lemma elements_nonempty {A} (a : arr A) : elements a <> [] <-> exists i j, in_arr a i j.
Proof.
  split.
  - destruct (elements a) as [|v l] eqn:E; [congruence|]. intros _.
    destruct (proj1 (in_elements a v)) as (i & j & H & _); [rewrite E; left; auto|]. eauto.
  - intros (i & j & H) E. assert (In (at2 a i j) (elements a)) by (apply in_elements; eauto).
    rewrite E in *. auto.
Qed.
Lemma min_max_elements a v0 vs : elements a = v0 :: vs -> is_min a (list_min v0 vs) /\ is_max a (list_max v0 vs).
Proof.
  intros E. split; split.
  - pose proof (list_min_in v0 vs) as H. rewrite <- E in H. apply in_elements in H as (i & j & H & ->). eauto.
  - intros i j H. apply list_min_le. rewrite <- E. apply in_elements. eauto.
  - pose proof (list_max_in v0 vs) as H. rewrite <- E in H. apply in_elements in H as (i & j & H & ->). eauto.
  - intros i j H. apply list_max_ge. rewrite <- E. apply in_elements. eauto.
Qed.
Lemma min_unique a v v' : is_min a v -> is_min a v' -> v = v'.
Proof.
  intros [(i & j & B & <-) H] [(i' & j' & B' & <-) H'].
  pose proof (H _ _ B'). pose proof (H' _ _ B). lra.
Qed.
Lemma max_unique a v v' : is_max a v -> is_max a v' -> v = v'.
Proof.
  intros [(i & j & B & <-) H] [(i' & j' & B' & <-) H'].
  pose proof (H _ _ B'). pose proof (H' _ _ B). lra.
Qed.

(** First element of a filtered increasing range. *)
Lemma filter_range_first (p : Z -> bool) m k l :
  filter p (map (fun k => k + 1) (zrange m)) = k :: l ->
  1 <= k <= m /\ p k = true /\ forall k', 1 <= k' < k -> p k' = false.
Proof.
  intros E.
  assert (I : In k (filter p (map (fun k => k + 1) (zrange m)))) by (rewrite E; left; auto).
  apply filter_In in I as [I Pk]. apply in_map_iff in I as (x & <- & I). apply in_zrange in I.
  split; [lia|]. split; [auto|]. intros k' Hk'.
  destruct (p k') eqn:P; auto. exfalso.
  assert (S : forall n b q, filter p (map (fun k => k + 1) (map Z.of_nat (seq b n))) = q :: l ->
     forall y, Z.of_nat b + 1 <= y < q -> p y = false).
  { clear. induction n as [|n IH]; cbn; intros b q E y Hy; [discriminate|].
    destruct (p (Z.of_nat b + 1)) eqn:P.
    - injection E as <- _. lia.
    - destruct (Z.eq_dec y (Z.of_nat b + 1)) as [->|]; auto. apply (IH (S b) q); auto. lia. }
  rewrite (S (Z.to_nat m) 0%nat (x + 1) E k') in P; [discriminate|]. cbn. lia.
Qed.
Lemma filter_range_none (p : Z -> bool) m :
  filter p (map (fun k => k + 1) (zrange m)) = [] <-> forall k, 1 <= k <= m -> p k = false.
Proof.
  split.
  - intros E k Hk. destruct (p k) eqn:P; auto. exfalso.
    assert (I : In k (filter p (map (fun k => k + 1) (zrange m)))).
    { apply filter_In. split; auto. apply in_map_iff. exists (k - 1). split; [lia|]. apply in_zrange. lia. }
    rewrite E in I. auto.
  - intros H. destruct (filter _ _) as [|k l] eqn:E; auto. exfalso.
    assert (I : In k (filter p (map (fun k => k + 1) (zrange m)))) by (rewrite E; left; auto).
    apply filter_In in I as [I Pk]. apply in_map_iff in I as (x & <- & I). apply in_zrange in I.
    rewrite H in Pk by lia. discriminate.
Qed.

Lemma ampthresh_ok a n m : ampthresh a n = Ok m ->
  exists lo hi H k, is_min a lo /\ is_max a hi /\ (lo < hi)%R /\ histogram a lo hi n H /\
    1 <= k <= n - 2 /\ valley H k /\ (forall k', 1 <= k' < k -> ~ valley H k') /\
    nr m = nr a /\ nc m = nc a /\
    forall i j, in_arr a i j -> (at2 m i j = true <-> (lo + (IZR k + / 2) * (hi - lo) / IZR n < at2 a i j)%R).
Proof.
  unfold ampthresh. intros E. apply guard_ok in E as [G E]. apply Z.ltb_lt in G.
  destruct (elements a) as [|v0 vs] eqn:El; [discriminate|].
  destruct (min_max_elements a v0 vs El) as [Mi Ma].
  set (lo := list_min v0 vs) in *. set (hi := list_max v0 vs) in *. rewrite <- El in E.
  destruct (Req_EM_T lo hi) as [|Hne]; [discriminate|].
  assert (Hlt : (lo < hi)%R).
  { destruct Mi as [(i & j & B & <-) Mi], Ma as [_ Ma]. pose proof (Ma i j B). lra. }
  destruct (filter _ _) as [|k l] eqn:F; [discriminate|]. injection E as <-.
  apply filter_range_first in F as (Hk & Pk & Fst).
  set (cnt := bin_count lo hi n (elements a)) in *.
  exists lo, hi, (fun k => IZR (cnt k)), k.
  assert (V : forall k, ((cnt k <=? cnt (k - 1)) && (cnt k <? cnt (k + 1)) = true <-> valley (fun k => IZR (cnt k)) k)).
  { intros q. unfold valley. rewrite andb_true_iff, Z.leb_le, Z.ltb_lt. split; intros [H1 H2]; split.
    - apply IZR_le; auto. - apply IZR_lt; auto. - apply le_IZR; auto. - apply lt_IZR; auto. }
  split; [auto|split; [auto|split; [auto|split]]].
  { intros q Hq. apply bin_count_pixels; auto. }
  split; [lia|]. split; [apply V; auto|]. split.
  { intros q Hq W. apply V in W. rewrite Fst in W by auto. discriminate. }
  split; [auto|split; [auto|]]. intros i j B. cbn. rewrite Rltb_iff. unfold bin_edge.
  assert (0 < IZR n)%R by (apply IZR_lt; auto).
  replace ((lo + IZR k * (hi - lo) / IZR n + (lo + IZR (k + 1) * (hi - lo) / IZR n)) / 2)%R
    with (lo + (IZR k + / 2) * (hi - lo) / IZR n)%R by (rewrite plus_IZR; field; lra).
  tauto.
Qed.
Lemma ampthresh_err a n e : ampthresh a n = Err e -> e = ValueError /\
  (n <= 0 \/ (~ exists i j, in_arr a i j) \/ (exists v, is_min a v /\ is_max a v) \/
   exists lo hi H, is_min a lo /\ is_max a hi /\ (lo < hi)%R /\ histogram a lo hi n H /\
     forall k, 1 <= k <= n - 2 -> ~ valley H k).
Proof.
  unfold ampthresh. intros E. apply guard_err in E as [[G ->]|[G E]].
  { split; auto. apply Z.ltb_ge in G. auto. }
  apply Z.ltb_lt in G.
  destruct (elements a) as [|v0 vs] eqn:El.
  { injection E as <-. split; auto. right; left. intros H. apply elements_nonempty in H. congruence. }
  destruct (min_max_elements a v0 vs El) as [Mi Ma].
  set (lo := list_min v0 vs) in *. set (hi := list_max v0 vs) in *. rewrite <- El in E.
  destruct (Req_EM_T lo hi) as [Heq|Hne].
  { injection E as <-. split; auto. right; right; left. exists lo. rewrite Heq at 2. auto. }
  assert (Hlt : (lo < hi)%R).
  { destruct Mi as [(i & j & B & <-) Mi], Ma as [_ Ma]. pose proof (Ma i j B). lra. }
  destruct (filter _ _) as [|k l] eqn:F; [|discriminate]. injection E as <-. split; auto.
  right; right; right. set (cnt := bin_count lo hi n (elements a)) in *.
  exists lo, hi, (fun k => IZR (cnt k)). split; [auto|split; [auto|split; [auto|split]]].
  { intros q Hq. apply bin_count_pixels; auto. }
  intros k Hk [W1 W2]. apply le_IZR in W1. apply lt_IZR in W2.
  pose proof (proj1 (filter_range_none _ _) F k Hk) as P. cbn beta in P.
  apply andb_false_iff in P. rewrite Z.leb_gt, Z.ltb_ge in P. lia.
Qed.
Lemma ampthresh_total a n : (exists m, ampthresh a n = Ok m) \/ ampthresh a n = Err ValueError.
Proof.
  destruct (ampthresh a n) as [m|e] eqn:E; eauto. apply ampthresh_err in E as [-> _]. auto.
Qed.
(** Consequences. *)
Lemma ampthresh_separates a n m : ampthresh a n = Ok m ->
  nr m = nr a /\ nc m = nc a /\
  (forall i j i' j', in_arr a i j -> in_arr a i' j' -> at2 m i j = true -> (at2 a i j <= at2 a i' j')%R ->
     at2 m i' j' = true) /\
  (forall i j, in_arr a i j -> is_max a (at2 a i j) -> at2 m i j = true) /\
  (forall i j, in_arr a i j -> is_min a (at2 a i j) -> at2 m i j = false).
Proof.
  intros E. apply ampthresh_ok in E as (lo & hi & H & k & Mi & Ma & Hlt & _ & Hk & _ & _ & R & C & V).
  assert (Hn : (0 < IZR n)%R) by (apply IZR_lt; lia).
  assert (K0 : (1 <= IZR k)%R) by (apply IZR_le; lia).
  assert (K1 : (IZR k <= IZR n - 2)%R) by (rewrite <- minus_IZR; apply IZR_le; lia).
  set (t := (lo + (IZR k + / 2) * (hi - lo) / IZR n)%R) in *.
  assert (T : (lo < t < hi)%R).
  { unfold t. split.
    - assert (0 < (IZR k + / 2) * (hi - lo) / IZR n)%R; [|lra].
      apply Rmult_lt_0_compat; [|apply Rinv_0_lt_compat; auto]. apply Rmult_lt_0_compat; lra.
    - assert ((IZR k + / 2) * (hi - lo) / IZR n < hi - lo)%R; [|lra].
      apply Rmult_lt_reg_r with (IZR n); auto.
      replace ((IZR k + / 2) * (hi - lo) / IZR n * IZR n)%R with ((IZR k + / 2) * (hi - lo))%R by (field; lra).
      nra. }
  split; [auto|split; [auto|]]. split; [|split].
  - intros i j i' j' B B' M L. apply V; auto. apply V in M; auto. lra.
  - intros i j B M. apply V; auto. rewrite (max_unique _ _ _ M Ma). lra.
  - intros i j B M. destruct (at2 m i j) eqn:Q; auto. apply V in Q; auto.
    rewrite (min_unique _ _ _ M Mi) in Q. lra.
Qed.
Lemma ampthresh_few_bins a n : n < 3 -> ampthresh a n = Err ValueError.
Proof.
  intros Hn. destruct (ampthresh a n) as [m|e] eqn:E.
  - apply ampthresh_ok in E as (lo & hi & H & k & _ & _ & _ & _ & Hk & _). lia.
  - apply ampthresh_err in E as [-> _]. auto.
Qed.
(** Affine rescaling. *)
Lemma elements_amap {A B} (f : A -> B) a : elements (amap f a) = map f (elements a).
Proof. unfold elements. rewrite map_map. reflexivity. Qed.
Lemma list_min_map (f : R -> R) d l : (forall x y, (x <= y)%R <-> (f x <= f y)%R) ->
  list_min (f d) (map f l) = f (list_min d l).
Proof.
  intros M. unfold list_min. induction l as [|x l IH]; cbn; auto. rewrite IH.
  unfold Rmin. specialize (M x (fold_right Rmin d l)).
  destruct (Rle_dec (f x) _), (Rle_dec x _); tauto.
Qed.
Lemma list_max_map (f : R -> R) d l : (forall x y, (x <= y)%R <-> (f x <= f y)%R) ->
  list_max (f d) (map f l) = f (list_max d l).
Proof.
  intros M. unfold list_max. induction l as [|x l IH]; cbn; auto. rewrite IH.
  unfold Rmax. specialize (M x (fold_right Rmax d l)).
  destruct (Rle_dec (f x) _), (Rle_dec x _); tauto.
Qed.
Lemma filter_length_map {A B} (f : A -> B) (p : B -> bool) (q : A -> bool) l : (forall x, p (f x) = q x) ->
  List.length (filter p (map f l)) = List.length (filter q l).
Proof.
  intros H. induction l as [|x l IH]; cbn; auto. rewrite H. destruct (q x); cbn; auto.
Qed.
Lemma ampthresh_affine a n m s o : (0 < s)%R -> ampthresh a n = Ok m ->
  exists m', ampthresh (amap (fun v => s * v + o)%R a) n = Ok m' /\ aeq m' m.
Proof.
  intros Hs. set (f := fun v => (s * v + o)%R).
  assert (M : forall x y, (x <= y)%R <-> (f x <= f y)%R) by (intros; unfold f; split; intros; nra).
  assert (ML : forall x y, (x < y)%R <-> (f x < f y)%R) by (intros; unfold f; split; intros; nra).
  assert (Bl : forall x y, Rleb (f x) (f y) = Rleb x y).
  { intros x y. specialize (M x y). unfold Rleb. destruct (Rle_dec (f x) (f y)), (Rle_dec x y); tauto. }
  assert (Bt : forall x y, Rltb (f x) (f y) = Rltb x y).
  { intros x y. specialize (ML x y). unfold Rltb. destruct (Rlt_dec (f x) (f y)), (Rlt_dec x y); tauto. }
  unfold ampthresh. intros E. apply guard_ok in E as [G E]. rewrite G. cbn [guard bind]. apply Z.ltb_lt in G.
  assert (Hn : (0 < IZR n)%R) by (apply IZR_lt; auto).
  rewrite elements_amap. destruct (elements a) as [|v0 vs]; [discriminate|]. cbn [map].
  rewrite list_min_map, list_max_map by auto.
  set (lo := list_min v0 vs) in *. set (hi := list_max v0 vs) in *.
  destruct (Req_EM_T lo hi) as [|Hne]; [discriminate|].
  destruct (Req_EM_T (f lo) (f hi)) as [Hq|_]; [exfalso; unfold f in Hq; nra|].
  assert (Ed : forall k, bin_edge (f lo) (f hi) n k = f (bin_edge lo hi n k)).
  { intros k. unfold bin_edge, f. field. lra. }
  assert (Cn : forall k, bin_count (f lo) (f hi) n (f v0 :: map f vs) k = bin_count lo hi n (v0 :: vs) k).
  { intros k. unfold bin_count. f_equal. change (f v0 :: map f vs) with (map f (v0 :: vs)).
    apply filter_length_map. intros x. rewrite !Ed, !Bl, Bt. reflexivity. }
  rewrite (filter_ext _ (fun k => (bin_count lo hi n (v0 :: vs) k <=? bin_count lo hi n (v0 :: vs) (k - 1)) &&
     (bin_count lo hi n (v0 :: vs) k <? bin_count lo hi n (v0 :: vs) (k + 1))))
    by (intros; rewrite !Cn; reflexivity).
  destruct (filter _ _) as [|k l]; [discriminate|]. injection E as <-.
  eexists. split; [reflexivity|]. repeat split. intros i j _. cbn. rewrite !Ed.
  set (e1 := bin_edge lo hi n k). set (e2 := bin_edge lo hi n (k + 1)).
  replace ((f e1 + f e2) / 2)%R with (f ((e1 + e2) / 2)%R) by (unfold f; field). apply Bt.
Qed.

(** ** find_optimum_1d *)
Lemma lsum_zrange (f : Z -> R) n : lsum f (zrange n) = rsum f n.
Proof.
  destruct (Z.le_gt_cases n 0) as [H|H].
  - rewrite rsum_0 by auto. unfold zrange. replace (Z.to_nat n) with O by lia. reflexivity.
  - assert (G : forall m, lsum f (zrange (Z.of_nat m)) = rsum f (Z.of_nat m)).
    { intros m. unfold zrange. rewrite Nat2Z.id. induction m as [|m IH]; [reflexivity|].
      rewrite seq_S, map_app, lsum_app, IH, Nat2Z.inj_succ. unfold Z.succ. rewrite rsum_succ by lia.
      cbn. ring. }
    specialize (G (Z.to_nat n)). rewrite Z2Nat.id in G by lia. auto.
Qed.
Definition vander (xs : vec R) (i k : Z) : R := (vat xs i ^ Z.to_nat (2 - k))%R.
Lemma vander_fitted xs c i : fitted 3 (vander xs) c i = (c 0%Z * vat xs i ^ 2 + c 1%Z * vat xs i + c 2%Z)%R.
Proof.
  unfold fitted. change 3 with (0 + 1 + 1 + 1). rewrite !rsum_succ, rsum_0 by lia.
  change (0 + 1 + 1) with 2. change (0 + 1) with 1. unfold vander.
  change (Z.to_nat (2 - 0)) with 2%nat. change (Z.to_nat (2 - 1)) with 1%nat. change (Z.to_nat (2 - 2)) with 0%nat.
  ring.
Qed.
Lemma three_values (f : Z -> R) : exists c : Z -> R, forall k, 0 <= k < 3 -> c k = f k.
Proof. eauto. Qed.
Definition c3 (a b c : R) (k : Z) : R := match k with 0 => a | 1 => b | _ => c end.
Lemma sse_sq_err xs ys c : sse (zrange (vlen xs)) 3 (vander xs) (vat ys) c = sq_err xs ys (c 0) (c 1) (c 2).
Proof.
  unfold sse, sq_err. rewrite lsum_zrange. apply rsum_ext. intros i _. rewrite vander_fitted. reflexivity.
Qed.
Lemma lstsq_parabola xs ys c : is_lstsq (zrange (vlen xs)) 3 (vander xs) (vat ys) c <->
  best_parabola xs ys (c 0) (c 1) (c 2).
Proof.
  split.
  - intros H q2 q1 q0. specialize (H (c3 q2 q1 q0)). rewrite !sse_sq_err in H. exact H.
  - intros H c'. rewrite !sse_sq_err. apply H.
Qed.
Lemma quad_three_roots a b c x y z : x <> y -> x <> z -> y <> z ->
  (a * x ^ 2 + b * x + c = 0 -> a * y ^ 2 + b * y + c = 0 -> a * z ^ 2 + b * z + c = 0 ->
  a = 0 /\ b = 0 /\ c = 0)%R.
Proof.
  intros H1 H2 H3 E1 E2 E3.
  assert (A1 : ((x - y) * (a * (x + y) + b) = 0)%R) by nra.
  assert (A2 : ((x - z) * (a * (x + z) + b) = 0)%R) by nra.
  apply Rmult_integral in A1 as [A1|A1]; [lra|].
  apply Rmult_integral in A2 as [A2|A2]; [lra|].
  assert (A3 : (a * (y - z) = 0)%R) by nra.
  apply Rmult_integral in A3 as [->|A3]; [|lra]. repeat split; nra.
Qed.
Lemma vander_independent xs : three_distinct xs -> independent (zrange (vlen xs)) 3 (vander xs).
Proof.
  intros (i & j & k & Hi & Hj & Hk & N1 & N2 & N3) c H.
  assert (E : forall t, 0 <= t < vlen xs -> (c 0%Z * vat xs t ^ 2 + c 1%Z * vat xs t + c 2%Z = 0)%R).
  { intros t Ht. rewrite <- vander_fitted. apply H. apply in_zrange. auto. }
  destruct (quad_three_roots (c 0) (c 1) (c 2) _ _ _ N1 N2 N3 (E i Hi) (E j Hj) (E k Hk)) as (A & B & C).
  intros q Hq. assert (q = 0 \/ q = 1 \/ q = 2) as [->|[->| ->]] by lia; auto.
Qed.
Section Opt1.
Variable lstsq : lstsq1_fun.
Hypothesis oracle : is_lstsq_oracle lstsq.

Lemma opt1_result xs ys : vlen xs = vlen ys -> 0 < vlen xs ->
  exists p2 p1 p0, best_parabola xs ys p2 p1 p0 /\
    find_optimum_1d lstsq xs ys =
      (if Rlt_dec (Rabs p2) (/ 2 ^ 52) then Err (Custom "QuadraticException") else Ok (- p1 / (2 * p2))%R).
Proof.
  intros H L. unfold find_optimum_1d. rewrite <- H, Z.eqb_refl. replace (0 <? vlen xs) with true by (symmetry; apply Z.ltb_lt; auto).
  cbn [guard bind].
  set (p := lstsq _ _ _ _). exists (p 0), (p 1), (p 2). split.
  - apply lstsq_parabola. apply oracle.
  - unfold Rltb, eps64. destruct (Rlt_dec (Rabs (p 0)) (/ 2 ^ 52)); reflexivity.
Qed.
Lemma opt1_exact xs ys a b c : vlen xs = vlen ys -> three_distinct xs ->
  (forall i, 0 <= i < vlen xs -> vat ys i = (a * vat xs i ^ 2 + b * vat xs i + c)%R) ->
  find_optimum_1d lstsq xs ys =
    (if Rlt_dec (Rabs a) (/ 2 ^ 52) then Err (Custom "QuadraticException") else Ok (- b / (2 * a))%R).
Proof.
  intros H D E. pose proof D as D'. destruct D' as (i0 & _ & _ & Hi0 & _).
  unfold find_optimum_1d. rewrite <- H, Z.eqb_refl.
  replace (0 <? vlen xs) with true by (symmetry; apply Z.ltb_lt; lia). cbn [guard bind].
  set (p := lstsq _ _ _ _).
  assert (P : forall k, 0 <= k < 3 -> p k = c3 a b c k).
  { apply (lstsq_recover (zrange (vlen xs)) 3 (vander xs) (vat ys)).
    - apply vander_independent; auto.
    - apply oracle.
    - intros i Hi. apply in_zrange in Hi. rewrite vander_fitted. apply E; auto. }
  rewrite (P 0), (P 1) by lia. cbn [c3].
  unfold Rltb, eps64. destruct (Rlt_dec (Rabs a) (/ 2 ^ 52)); reflexivity.
Qed.
Lemma best_parabola_unique xs ys a b c a' b' c' : three_distinct xs ->
  best_parabola xs ys a b c -> best_parabola xs ys a' b' c' -> a = a' /\ b = b' /\ c = c'.
Proof.
  intros D H H'.
  pose proof (proj2 (lstsq_parabola xs ys (c3 a b c)) H) as L.
  pose proof (proj2 (lstsq_parabola xs ys (c3 a' b' c')) H') as L'.
  assert (Z0 : forall k, 0 <= k < 3 -> (c3 a b c k - c3 a' b' c' k = 0)%R).
  { apply (vander_independent xs D). intros i Hi. rewrite fitted_sub.
    rewrite (lstsq_fitted_unique _ _ _ _ _ _ L L' i Hi). ring. }
  pose proof (Z0 0 ltac:(lia)). pose proof (Z0 1 ltac:(lia)). pose proof (Z0 2 ltac:(lia)). cbn [c3] in *.
  repeat split; lra.
Qed.
Lemma opt1_general xs ys p2 p1 p0 : vlen xs = vlen ys -> three_distinct xs -> best_parabola xs ys p2 p1 p0 ->
  find_optimum_1d lstsq xs ys =
    (if Rlt_dec (Rabs p2) (/ 2 ^ 52) then Err (Custom "QuadraticException") else Ok (- p1 / (2 * p2))%R).
Proof.
  intros H D B. pose proof D as D'. destruct D' as (i0 & _ & _ & Hi0 & _).
  destruct (opt1_result xs ys H ltac:(lia)) as (q2 & q1 & q0 & B' & ->).
  destruct (best_parabola_unique _ _ _ _ _ _ _ _ D B B') as (-> & -> & _). reflexivity.
Qed.
Lemma opt1_shift xs ys s t : vlen xs = vlen ys -> three_distinct xs ->
  find_optimum_1d lstsq (Vec (vlen xs) (fun i => vat xs i + s)%R) (Vec (vlen ys) (fun i => vat ys i + t)%R) =
  (do r <- find_optimum_1d lstsq xs ys; Ok (r + s)%R).
Proof.
  intros H D. pose proof D as D'. destruct D' as (i0 & _ & _ & Hi0 & _).
  destruct (opt1_result xs ys H ltac:(lia)) as (p2 & p1 & p0 & B & ->).
  rewrite (opt1_general _ _ p2 (p1 - 2 * p2 * s)%R (p2 * s ^ 2 - p1 * s + p0 + t)%R).
  - destruct (Rlt_dec (Rabs p2) (/ 2 ^ 52)) as [|N]; [reflexivity|]. cbn [bind]. f_equal.
    field. intros ->. rewrite Rabs_R0 in N. apply N. apply Rinv_0_lt_compat. apply pow_lt. lra.
  - cbn. auto.
  - destruct D as (i & j & k & D). exists i, j, k. cbn. repeat split; try apply D; destruct D as (_ & _ & _ & D1 & D2 & D3); lra.
  - intros q2 q1 q0. specialize (B q2 (q1 + 2 * q2 * s)%R (q2 * s ^ 2 + q1 * s + q0 - t)%R).
    unfold sq_err in *. cbn [vlen vat].
    eapply Rle_trans; [right; apply rsum_ext; intros i _|eapply Rle_trans; [exact B|right; apply rsum_ext; intros i _]];
      cbn beta; ring.
Qed.
Lemma opt1_length xs ys : vlen xs <> vlen ys -> find_optimum_1d lstsq xs ys = Err ValueError.
Proof. intros H. unfold find_optimum_1d. rewrite (proj2 (Z.eqb_neq _ _) H). reflexivity. Qed.
End Opt1.

(** ** Masks *)
Lemma in_nzp m i j : In (i, j) (nonzero_points m) <-> in_arr m i j /\ at2 m i j <> 0%R.
Proof. rewrite in_nonzero_points. unfold in_arr. cbn [fst snd]. tauto. Qed.
Lemma masked_lsum m f : lsum (fun p => f (fst p) (snd p)) (nonzero_points m) = masked_sum m f.
Proof. apply filter_indices_sum. Qed.
Lemma bool_mask_count m : bool_mask m ->
  fold_right Z.add 0 (map Ztrunc (elements m)) = npoints m /\ sum_list (elements m) = IZR (npoints m).
Proof.
  intros B. unfold elements, npoints, nonzero_points.
  assert (H : forall p, In p (indices (nr m) (nc m)) -> at2 m (fst p) (snd p) = 0%R \/ at2 m (fst p) (snd p) = 1%R).
  { intros [i j] I. apply in_indices in I. apply B. exact I. }
  induction (indices (nr m) (nc m)) as [|p l IH]; [cbn; auto|].
  destruct IH as [I1 I2]; [intros q Hq; apply H; right; auto|].
  specialize (H p (or_introl eq_refl)). cbn [map filter fold_right]. unfold sum_list in *. cbn [fold_right].
  rewrite I1. rewrite I2. clear I1 I2. destruct H as [H|H]; rewrite H.
  - destruct (Req_EM_T 0 0) as [_|N]; [|lra]. rewrite Ztrunc_IZR. split; [lia|lra].
  - destruct (Req_EM_T 1 0) as [N|_]; [lra|]. rewrite Ztrunc_IZR. cbn [List.length].
    rewrite Nat2Z.inj_succ. unfold Z.succ. rewrite plus_IZR. split; [lia|lra].
Qed.

(** ** find_optimum_2d *)
Definition c6 (a b c d e f : R) (k : Z) : R :=
  match k with 0 => a | 1 => b | 2 => c | 3 => d | 4 => e | _ => f end.
Lemma quad_fitted xs ys c p : fitted 6 (quad_basis xs ys) c p =
  quad2 (c 0) (c 1) (c 2) (c 3) (c 4) (c 5) (vat xs (snd p)) (vat ys (fst p)).
Proof.
  unfold fitted, quad2. change 6 with (0 + 1 + 1 + 1 + 1 + 1 + 1). rewrite !rsum_succ, rsum_0 by lia.
  change (0 + 1 + 1 + 1 + 1 + 1) with 5. change (0 + 1 + 1 + 1 + 1) with 4. change (0 + 1 + 1 + 1) with 3.
  change (0 + 1 + 1) with 2. change (0 + 1) with 1. unfold quad_basis. ring.
Qed.
Lemma quad_independent xs ys m : unisolvent2 xs ys m -> independent (nonzero_points m) 6 (quad_basis xs ys).
Proof.
  intros U c H. destruct (U (c 0) (c 1) (c 2) (c 3) (c 4) (c 5)) as (H0 & H1 & H2 & H3 & H4 & H5).
  - intros i j B N. rewrite <- (H (i, j)).
    + rewrite quad_fitted. reflexivity.
    + apply in_nzp. auto.
  - intros k Hk. assert (k = 0 \/ k = 1 \/ k = 2 \/ k = 3 \/ k = 4 \/ k = 5) as [->|[->|[->|[->|[->| ->]]]]] by lia; auto.
Qed.
Section Opt2.
Variable lstsq : lstsq_fun.
Hypothesis oracle : is_lstsq_oracle lstsq.

Lemma opt2_exact xs ys arr mask a b c d e f :
  same_shape arr mask = true -> nr arr = vlen ys -> nc arr = vlen xs -> bool_mask mask -> unisolvent2 xs ys mask ->
  (forall i j, in_arr mask i j -> at2 mask i j <> 0%R -> at2 arr i j = quad2 a b c d e f (vat xs j) (vat ys i)) ->
  find_optimum_2d lstsq xs ys arr mask =
    if Rlt_dec (Rabs (b ^ 2 - 4 * a * c)) (4 * / 10 ^ 15) then Err (Custom "QuadraticException")
    else if Rlt_dec (Rabs (2 * c)) (2 * / 10 ^ 15) then Err (Custom "QuadraticException")
    else Ok ((2 * c * d - b * e) / (b ^ 2 - 4 * a * c), (2 * a * e - b * d) / (b ^ 2 - 4 * a * c))%R.
Proof.
  intros S Hr Hc B U E. unfold find_optimum_2d. rewrite S, Hr, Hc, !Z.eqb_refl.
  rewrite (proj1 (bool_mask_count _ B)). unfold reshape_ok. rewrite Z.eqb_refl. cbn [guard bind orb].
  set (q := lstsq _ _ _ _).
  assert (P : forall k, 0 <= k < 6 -> q k = c6 a b c d e f k).
  { apply (lstsq_recover (nonzero_points mask) 6 (quad_basis xs ys) (fun p => at2 arr (fst p) (snd p))).
    - apply quad_independent; auto.
    - apply oracle.
    - intros [i j] Hi. apply in_nzp in Hi as [Hi N]. rewrite quad_fitted. apply E; auto. }
  rewrite (P 0), (P 1), (P 2), (P 3), (P 4) by lia. cbn [c6]. unfold Rltb, resolution.
  replace (b * b - 4 * a * c)%R with (b ^ 2 - 4 * a * c)%R by ring.
  destruct (Rlt_dec (Rabs (b ^ 2 - 4 * a * c)) _) as [|N1]; [reflexivity|].
  destruct (Rlt_dec (Rabs (2 * c)) _) as [|N2]; [reflexivity|]. cbn [orb negb guard bind].
  assert (K : (0 < / 10 ^ 15)%R) by (apply Rinv_0_lt_compat, pow_lt; lra).
  assert (b ^ 2 - 4 * a * c <> 0)%R by (intros Q; rewrite Q, Rabs_R0 in N1; lra).
  assert (c <> 0)%R by (intros Q; rewrite Q, Rmult_0_r, Rabs_R0 in N2; lra).
  apply f_equal. f_equal; field; auto.
Qed.
Lemma opt2_shape xs ys arr mask : same_shape arr mask = false \/ nr arr <> vlen ys \/ nc arr <> vlen xs ->
  find_optimum_2d lstsq xs ys arr mask = Err ValueError.
Proof.
  intros H. unfold find_optimum_2d. destruct (same_shape arr mask); [|reflexivity].
  destruct (Z.eqb_spec (nr arr) (vlen ys)); [|reflexivity].
  destruct (Z.eqb_spec (nc arr) (vlen xs)); [|reflexivity]. destruct H as [H|[H|H]]; [discriminate|tauto|tauto].
Qed.
End Opt2.
Lemma div_eq x n D : (D <> 0 -> x * D = n -> x = n / D)%R.
Proof. intros H <-. field. auto. Qed.
Lemma stationary_unique a b c d e x y : (b ^ 2 - 4 * a * c <> 0)%R ->
  (stationary a b c d e x y <->
   x = (2 * c * d - b * e) / (b ^ 2 - 4 * a * c) /\ y = (2 * a * e - b * d) / (b ^ 2 - 4 * a * c))%R.
Proof.
  intros N. unfold stationary. split.
  - intros [H1 H2]. split.
    + apply div_eq; auto.
      replace d with (- (2 * a * x + b * y))%R by lra. replace e with (- (b * x + 2 * c * y))%R by lra. ring.
    + apply div_eq; auto.
      replace d with (- (2 * a * x + b * y))%R by lra. replace e with (- (b * x + 2 * c * y))%R by lra. ring.
  - intros [-> ->]. split; field; auto.
Qed.

(** ** center_of_energy *)
Lemma sum_nonzero_points a (f : Z -> Z -> R) : (forall i j, in_arr a i j -> at2 a i j = 0%R -> f i j = 0%R) ->
  sum_list (map (fun p => f (fst p) (snd p)) (nonzero_points a)) = rsum2 f (nr a) (nc a).
Proof.
  intros H. rewrite sum_list_lsum, masked_lsum. apply rsum2_ext. intros i j Hi Hj.
  destruct (Req_EM_T (at2 a i j) 0) as [E|]; auto. symmetry. apply H; auto. split; auto.
Qed.
Lemma center_value a : (energy_sum a <> 0)%R -> center_of_energy a =
  (Some (rsum2 (fun i j => IZR j * at2 a i j)%R (nr a) (nc a) / energy_sum a)%R,
   Some (rsum2 (fun i j => IZR i * at2 a i j)%R (nr a) (nc a) / energy_sum a)%R).
Proof.
  intros N. unfold center_of_energy.
  assert (T : sum_list (map (fun p => at2 a (fst p) (snd p)) (nonzero_points a)) = energy_sum a)
    by (apply (sum_nonzero_points a (at2 a)); auto).
  rewrite T. destruct (nonzero_points a) as [|p l] eqn:E.
  - cbn in T. exfalso. apply N. rewrite <- T. reflexivity.
  - rewrite <- E. destruct (Req_EM_T (energy_sum a) 0) as [|_]; [tauto|].
    rewrite (sum_nonzero_points a (fun i j => IZR j * (at2 a i j / energy_sum a))%R).
    + rewrite (sum_nonzero_points a (fun i j => IZR i * (at2 a i j / energy_sum a))%R).
      * f_equal; f_equal; unfold Rdiv; rewrite (Rmult_comm _ (/ _)), <- rsum2_scal; apply rsum2_ext; intros; ring.
      * intros i j _ ->. field; auto.
    + intros i j _ ->. field; auto.
Qed.
Lemma center_zero a : (forall i j, in_arr a i j -> at2 a i j = 0%R) -> center_of_energy a = (Some 0%R, Some 0%R).
Proof.
  intros H. unfold center_of_energy. destruct (nonzero_points a) as [|[i j] l] eqn:E; auto. exfalso.
  assert (I : In (i, j) (nonzero_points a)) by (rewrite E; left; auto).
  apply in_nzp in I as [I N]. auto.
Qed.
Lemma center_undefined a i j : in_arr a i j -> at2 a i j <> 0%R -> energy_sum a = 0%R ->
  center_of_energy a = (None, None).
Proof.
  intros B N Z0. unfold center_of_energy.
  assert (T : sum_list (map (fun p => at2 a (fst p) (snd p)) (nonzero_points a)) = energy_sum a)
    by (apply (sum_nonzero_points a (at2 a)); auto).
  rewrite T, Z0. destruct (nonzero_points a) as [|p l] eqn:E.
  - assert (I : In (i, j) (nonzero_points a)) by (apply in_nzp; auto). rewrite E in I. destruct I.
  - destruct (Req_EM_T 0 0); [auto|lra].
Qed.
(** A weighted mean lies between bounds on the weighted positions. *)
Lemma mean_bounds (g : Z -> Z -> R) a lo hi : (0 < energy_sum a)%R ->
  (forall i j, in_arr a i j -> (0 <= at2 a i j)%R) ->
  (forall i j, in_arr a i j -> at2 a i j <> 0%R -> (lo <= g i j <= hi)%R) ->
  (lo <= rsum2 (fun i j => g i j * at2 a i j)%R (nr a) (nc a) / energy_sum a <= hi)%R.
Proof.
  intros P N B. set (S := rsum2 (fun i j => g i j * at2 a i j)%R (nr a) (nc a)).
  assert (L : (lo * energy_sum a <= S)%R).
  { unfold energy_sum, S. rewrite <- rsum2_scal. apply rsum2_le. intros i j Hi Hj.
    destruct (Req_EM_T (at2 a i j) 0) as [->|Q]; [lra|].
    apply Rmult_le_compat_r; [apply N; split; auto|apply B; [split|]; auto]. }
  assert (U : (S <= hi * energy_sum a)%R).
  { unfold energy_sum, S. rewrite <- rsum2_scal. apply rsum2_le. intros i j Hi Hj.
    destruct (Req_EM_T (at2 a i j) 0) as [->|Q]; [lra|].
    apply Rmult_le_compat_r; [apply N; split; auto|apply B; [split|]; auto]. }
  split; apply Rmult_le_reg_r with (energy_sum a); auto; unfold Rdiv; rewrite (Rmult_assoc S), Rinv_l, Rmult_1_r; lra.
Qed.
Lemma center_scale a s : s <> 0%R -> center_of_energy (amap (fun v => s * v)%R a) = center_of_energy a.
Proof.
  intros Hs. unfold center_of_energy.
  assert (E : nonzero_points (amap (fun v => s * v)%R a) = nonzero_points a).
  { unfold nonzero_points. cbn [nr nc amap at2]. apply filter_ext. intros [i j]. cbn [fst snd].
    destruct (Req_EM_T (s * at2 a i j) 0) as [H|H], (Req_EM_T (at2 a i j) 0) as [H'|H']; auto; exfalso.
    - apply Rmult_integral in H. tauto.
    - rewrite H' in H. apply H. ring. }
  rewrite E. cbn [amap at2]. rewrite !sum_list_lsum, lsum_scal.
  destruct (nonzero_points a) as [|p l]; auto.
  set (T := lsum (fun p => at2 a (fst p) (snd p)) (p :: l)).
  destruct (Req_EM_T (s * T) 0) as [H|H], (Req_EM_T T 0) as [H'|H']; auto.
  - apply Rmult_integral in H. tauto.
  - rewrite H' in H. exfalso. apply H. ring.
  - f_equal; f_equal; apply lsum_ext; intros; field; auto.
Qed.
Lemma rsum2_roll f n m s t : 0 < n -> 0 < m ->
  rsum2 (fun i j => f ((i + s) mod n) ((j + t) mod m)) n m = rsum2 f n m.
Proof.
  intros Hn Hm. unfold rsum2.
  rewrite (rsum_ext _ (fun i => (fun i' => rsum (fun j => f i' j) m) ((i + s) mod n))).
  - apply (rsum_roll (fun i' => rsum (fun j => f i' j) m)); auto.
  - intros i _. apply (rsum_roll (fun j => f ((i + s) mod n) j)); auto.
Qed.
Lemma center_translate a b s t cx cy : wf a -> nr b = nr a -> nc b = nc a ->
  (forall i j, in_arr a i j -> at2 a i j <> 0%R -> 0 <= i + s < nr a /\ 0 <= j + t < nc a) ->
  (forall i j, in_arr b i j ->
     (in_arr a (i - s) (j - t) -> at2 b i j = at2 a (i - s) (j - t)) /\ (~ in_arr a (i - s) (j - t) -> at2 b i j = 0%R)) ->
  energy_sum a <> 0%R ->
  center_of_energy a = (Some cx, Some cy) ->
  center_of_energy b = (Some (cx + IZR t)%R, Some (cy + IZR s)%R).
Proof.
  intros W Hr Hc Keep Mv N0 E. rewrite center_value in E by auto. injection E as <- <-.
  assert (Pos : 0 < nr a /\ 0 < nc a).
  { split; apply Z.nle_gt; intros H; apply N0; unfold energy_sum, rsum2.
    - apply rsum_0; auto.
    - apply rsum_all_zero. intros. apply rsum_0; auto. }
  assert (Eq : forall (g h : Z -> Z -> R), (forall i j, in_arr a i j -> g (i + s)%Z (j + t)%Z = h i j) ->
    rsum2 (fun i j => g i j * at2 b i j)%R (nr b) (nc b) = rsum2 (fun i j => h i j * at2 a i j)%R (nr a) (nc a)).
  { intros g h GH. rewrite <- (rsum2_roll (fun i j => h i j * at2 a i j)%R (nr a) (nc a) (- s) (- t)) by tauto.
    rewrite Hr, Hc. apply rsum2_ext. intros i j Hi Hj.
    destruct (Mv i j) as [M1 M2]; [split; lia|].
    set (i' := (i + - s) mod nr a). set (j' := (j + - t) mod nc a).
    assert (Hi' : 0 <= i' < nr a) by (apply Z.mod_pos_bound; tauto).
    assert (Hj' : 0 <= j' < nc a) by (apply Z.mod_pos_bound; tauto).
    destruct (in_arrb a (i - s) (j - t)) eqn:I.
    - apply in_arrb_spec in I. rewrite M1 by auto. destruct I as [I1 I2].
      assert (i' = i - s) as -> by (apply Z.mod_small; lia). assert (j' = j - t) as -> by (apply Z.mod_small; lia).
      rewrite <- GH by (split; auto). f_equal. f_equal; lia.
    - assert (I' : ~ in_arr a (i - s) (j - t)) by (intros Q; apply in_arrb_spec in Q; congruence).
      rewrite M2 by auto. assert (at2 a i' j' = 0%R) as ->; [|ring].
      destruct (Req_EM_T (at2 a i' j') 0) as [|Q]; auto. exfalso. apply I'.
      destruct (Keep i' j' (conj Hi' Hj') Q) as [K1 K2].
      assert (i - s = i').
      { assert ((i - s) mod nr a = i') by reflexivity. pose proof (Z.div_mod (i - s) (nr a) ltac:(lia)) as D.
        rewrite H in D. assert (i = nr a * ((i - s) / nr a) + (i' + s)) by lia.
        assert ((i - s) / nr a = 0); [|lia]. set (w := (i - s) / nr a) in *. nia. }
      assert (j - t = j').
      { assert ((j - t) mod nc a = j') by reflexivity. pose proof (Z.div_mod (j - t) (nc a) ltac:(lia)) as D.
        rewrite H0 in D. assert (j = nc a * ((j - t) / nc a) + (j' + t)) by lia.
        assert ((j - t) / nc a = 0); [|lia]. set (w := (j - t) / nc a) in *. nia. }
      split; lia. }
  assert (T : energy_sum b = energy_sum a).
  { transitivity (rsum2 (fun i j => 1 * at2 b i j)%R (nr b) (nc b)); [apply rsum2_ext; intros; ring|].
    rewrite (Eq (fun _ _ => 1%R) (fun _ _ => 1%R)) by auto. apply rsum2_ext. intros; ring. }
  rewrite center_value by (rewrite T; auto). rewrite T.
  rewrite (Eq (fun _ j => IZR j) (fun _ j => (IZR j + IZR t)%R)) by (intros; apply plus_IZR).
  rewrite (Eq (fun i _ => IZR i) (fun i _ => (IZR i + IZR s)%R)) by (intros; apply plus_IZR).
  assert (Sp : forall (g : Z -> Z -> R) w, (rsum2 (fun i j => (g i j + w) * at2 a i j) (nr a) (nc a) =
     rsum2 (fun i j => g i j * at2 a i j) (nr a) (nc a) + w * energy_sum a)%R).
  { intros g w. unfold energy_sum. rewrite <- rsum2_scal, <- rsum2_add. apply rsum2_ext. intros; ring. }
  rewrite (Sp (fun _ j => IZR j)), (Sp (fun i _ => IZR i)). f_equal; f_equal; field; auto.
Qed.
Lemma center_point a i0 j0 : in_arr a i0 j0 -> at2 a i0 j0 <> 0%R ->
  (forall i j, in_arr a i j -> (i, j) <> (i0, j0) -> at2 a i j = 0%R) ->
  center_of_energy a = (Some (IZR j0), Some (IZR i0)).
Proof.
  intros B N H.
  assert (D : forall g : Z -> Z -> R, rsum2 (fun i j => g i j * at2 a i j)%R (nr a) (nc a) = (g i0 j0 * at2 a i0 j0)%R).
  { intros g. rewrite <- (rsum2_delta (fun i j => g i j * at2 a i j)%R (nr a) (nc a) i0 j0) by apply B.
    apply rsum2_ext. intros i j Hi Hj.
    destruct (Z.eqb_spec i i0) as [->|Hi0]; [destruct (Z.eqb_spec j j0) as [->|Hj0]|]; cbn [andb]; auto.
    - rewrite H; [ring|split; auto|congruence].
    - rewrite H; [ring|split; auto|congruence]. }
  assert (T : energy_sum a = at2 a i0 j0).
  { transitivity (rsum2 (fun i j => 1 * at2 a i j)%R (nr a) (nc a)); [apply rsum2_ext; intros; ring|].
    rewrite (D (fun _ _ => 1%R)). ring. }
  rewrite center_value by (rewrite T; auto). rewrite T, (D (fun _ j => IZR j)), (D (fun i _ => IZR i)).
  f_equal; f_equal; field; auto.
Qed.

(** ** quadrant_energy_balance *)
Lemma disc_dec x0 y0 radius i j : (0 <= radius)%R ->
  (Rleb (sqrt (IZR (j - x0) ^ 2 + IZR (i - y0) ^ 2)) radius = true <-> in_disc x0 y0 radius i j).
Proof.
  intros Hr. rewrite Rleb_iff. unfold in_disc.
  set (d := (IZR (j - x0) ^ 2 + IZR (i - y0) ^ 2)%R).
  assert (0 <= d)%R by (unfold d; pose proof (pow2_ge_0 (IZR (j - x0))); pose proof (pow2_ge_0 (IZR (i - y0))); lra).
  split; intros L.
  - rewrite <- (sqrt_sqrt d) by auto. pose proof (sqrt_pos d). nra.
  - rewrite <- (sqrt_Rsqr radius) by auto. apply sqrt_le_1_alt. unfold Rsqr. lra.
Qed.
Lemma quad_value a x0 y0 radius : (0 <= radius)%R -> 0 <= x0 < nr a -> 0 <= y0 < nc a -> energy_sum a <> 0%R ->
  exists bx by_ sx sy, quadrant_energy_balance a x0 y0 radius = Ok (bx, by_) /\
    disc_energy a x0 y0 radius (code_side_x x0 y0) sx /\ disc_energy a x0 y0 radius (code_side_y x0 y0) sy /\
    bx = (sx / energy_sum a)%R /\ by_ = (sy / energy_sum a)%R.
Proof.
  intros Hr Hx Hy HE. unfold quadrant_energy_balance.
  rewrite (proj2 (Rleb_iff _ _) Hr), (proj2 (Z.leb_le 0 x0)), (proj2 (Z.leb_le 0 y0)) by lia.
  rewrite (proj2 (Z.ltb_lt x0 _)), (proj2 (Z.ltb_lt y0 _)) by lia. cbn [guard bind].
  set (ind := fun i j => if Rleb (sqrt (IZR (j - x0) ^ 2 + IZR (i - y0) ^ 2)) radius then at2 a i j else 0%R).
  do 4 eexists. split; [reflexivity|]. split; [|split; [|split]].
  - exists (fun i j => (code_side_x x0 y0 i j * ind i j)%R). split; [|reflexivity].
    intros i j _. unfold ind. pose proof (disc_dec x0 y0 radius i j Hr) as D. destruct (Rleb _ _).
    + split; [auto|]. intros N. exfalso. apply N, D. auto.
    + split; [|intros; ring]. intros N. apply D in N. discriminate.
  - exists (fun i j => (code_side_y x0 y0 i j * ind i j)%R). split; [|reflexivity].
    intros i j _. unfold ind. pose proof (disc_dec x0 y0 radius i j Hr) as D. destruct (Rleb _ _).
    + split; [auto|]. intros N. exfalso. apply N, D. auto.
    + split; [|intros; ring]. intros N. apply D in N. discriminate.
  - unfold energy_sum in *. unfold Rdiv. rewrite (Rmult_comm _ (/ _)), <- rsum2_scal, <- !rsum2_add, <- rsum2_sub.
    apply rsum2_ext. intros i j _ _. unfold ind, code_side_x, side_x. cbv beta zeta. set (B := Rleb _ _).
    set (T := rsum2 _ _ _) in *. fold T.
    destruct (Z.leb_spec 0 (j - x0)), (Z.leb_spec (j - x0) 0), (Z.leb_spec 0 (i - y0)), (Z.leb_spec (i - y0) 0), (Z.eqb_spec i y0);
      try lia; destruct B; cbn [andb];
      (destruct (Z.sgn_spec (j - x0)) as [[? ->]|[[? ->]|[? ->]]]; try lia); try change (- (1)) with (-1); (ring || (field; auto)).
  - unfold energy_sum in *. unfold Rdiv. rewrite (Rmult_comm _ (/ _)), <- rsum2_scal, <- !rsum2_add, <- rsum2_sub.
    apply rsum2_ext. intros i j _ _. unfold ind, code_side_y, side_y. cbv beta zeta. set (B := Rleb _ _).
    set (T := rsum2 _ _ _) in *. fold T.
    destruct (Z.leb_spec 0 (j - x0)), (Z.leb_spec (j - x0) 0), (Z.leb_spec 0 (i - y0)), (Z.leb_spec (i - y0) 0), (Z.eqb_spec j x0);
      try lia; destruct B; cbn [andb];
      (destruct (Z.sgn_spec (i - y0)) as [[? ->]|[[? ->]|[? ->]]]; try lia); try change (- (1)) with (-1); (ring || (field; auto)).
Qed.
Lemma disc_energy_unique a x0 y0 r w s s' : disc_energy a x0 y0 r w s -> disc_energy a x0 y0 r w s' -> s = s'.
Proof.
  intros (f & F & ->) (g & G & ->). apply rsum2_ext. intros i j Hi Hj.
  destruct (F i j (conj Hi Hj)) as [F1 F2], (G i j (conj Hi Hj)) as [G1 G2].
  destruct (Classical_Prop.classic (in_disc x0 y0 r i j)) as [H|H].
  - rewrite F1, G1; auto.
  - rewrite F2, G2; auto.
Qed.
(** Plain balance when the origin's row and column are dark. *)
Lemma disc_energy_plain a x0 y0 r w w' s : (forall i j, in_arr a i j -> at2 a i j <> 0%R -> w i j = w' i j) ->
  disc_energy a x0 y0 r w s -> disc_energy a x0 y0 r w' s.
Proof.
  intros H (f & F & ->). exists f. split; auto. intros i j B. destruct (F i j B) as [F1 F2]. split; auto.
  intros D. rewrite F1 by auto. destruct (Req_EM_T (at2 a i j) 0) as [->|N]; [ring|]. rewrite H; auto.
Qed.
Lemma rsum2_flip_h f n m : rsum2 (fun i j => f i (m - 1 - j)) n m = rsum2 f n m.
Proof. apply rsum_ext. intros i _. apply (rsum_rev (fun j => f i j)). Qed.
Lemma rsum2_flip_v f n m : rsum2 (fun i j => f (n - 1 - i) j) n m = rsum2 f n m.
Proof. apply (rsum_rev (fun i => rsum (fun j => f i j) m)). Qed.
Lemma quad_flip_h a x0 y0 r bx by_ : energy_sum a <> 0%R -> nc a = 2 * x0 + 1 ->
  quadrant_energy_balance a x0 y0 r = Ok (bx, by_) ->
  quadrant_energy_balance (flip_h a) x0 y0 r = Ok (- bx, by_)%R.
Proof.
  intros HE Hn E. assert (E' := E). unfold quadrant_energy_balance in E'.
  apply guard_ok in E' as [G1 E']. apply guard_ok in E' as [G2 E']. apply guard_ok in E' as [G3 E'].
  apply guard_ok in E' as [G4 E']. apply guard_ok in E' as [G5 _].
  apply Rleb_iff in G1. apply Z.leb_le in G2. apply Z.leb_le in G3. apply Z.ltb_lt in G4. apply Z.ltb_lt in G5.
  destruct (quad_value a x0 y0 r) as (bx1 & by1 & sx & sy & E1 & Dx & Dy & -> & ->); auto.
  rewrite E1 in E. injection E as <- <-.
  assert (T : energy_sum (flip_h a) = energy_sum a) by (apply (rsum2_flip_h (at2 a))).
  destruct (quad_value (flip_h a) x0 y0 r) as (bx2 & by2 & sx2 & sy2 & E2 & Dx2 & Dy2 & -> & ->); auto.
  { rewrite T; auto. }
  assert (Ds : forall i j, in_disc x0 y0 r i j <-> in_disc x0 y0 r i (nc a - 1 - j)).
  { intros i j. unfold in_disc. replace (nc a - 1 - j - x0) with (- (j - x0)) by lia. rewrite opp_IZR.
    replace ((- IZR (j - x0)) ^ 2)%R with (IZR (j - x0) ^ 2)%R by ring. tauto. }
  assert (X : sx2 = (- sx)%R).
  { apply (disc_energy_unique _ _ _ _ _ _ _ Dx2). destruct Dx as (f & F & ->).
    exists (fun i j => - f i (nc a - 1 - j)%Z)%R. split.
    - intros i j [Hi Hj]. cbn [flip_h nr nc at2] in *. destruct (F i (nc a - 1 - j)) as [F1 F2]; [split; lia|].
      rewrite Ds. split; intros D.
      + rewrite F1 by auto. unfold code_side_x, side_x. replace (nc a - 1 - j - x0) with (- (j - x0)) by lia.
        rewrite Z.sgn_opp, opp_IZR. ring.
      + rewrite F2 by auto. ring.
    - cbn [flip_h nr nc]. rewrite rsum2_opp, rsum2_flip_h. reflexivity. }
  assert (Y : sy2 = sy).
  { apply (disc_energy_unique _ _ _ _ _ _ _ Dy2). destruct Dy as (f & F & ->).
    exists (fun i j => f i (nc a - 1 - j)%Z). split.
    - intros i j [Hi Hj]. cbn [flip_h nr nc at2] in *. destruct (F i (nc a - 1 - j)) as [F1 F2]; [split; lia|].
      rewrite Ds. split; intros D.
      + rewrite F1 by auto. unfold code_side_y, side_y.
        replace (nc a - 1 - j =? x0) with (j =? x0); [ring|]. apply Bool.eq_iff_eq_true. rewrite !Z.eqb_eq. lia.
      + rewrite F2 by auto. ring.
    - cbn [flip_h nr nc]. rewrite rsum2_flip_h. reflexivity. }
  rewrite E2, T, X, Y. apply f_equal. f_equal. field; auto.
Qed.
Lemma quad_flip_v a x0 y0 r bx by_ : energy_sum a <> 0%R -> nr a = 2 * y0 + 1 ->
  quadrant_energy_balance a x0 y0 r = Ok (bx, by_) ->
  quadrant_energy_balance (flip_v a) x0 y0 r = Ok (bx, - by_)%R.
Proof.
  intros HE Hn E. assert (E' := E). unfold quadrant_energy_balance in E'.
  apply guard_ok in E' as [G1 E']. apply guard_ok in E' as [G2 E']. apply guard_ok in E' as [G3 E'].
  apply guard_ok in E' as [G4 E']. apply guard_ok in E' as [G5 _].
  apply Rleb_iff in G1. apply Z.leb_le in G2. apply Z.leb_le in G3. apply Z.ltb_lt in G4. apply Z.ltb_lt in G5.
  destruct (quad_value a x0 y0 r) as (bx1 & by1 & sx & sy & E1 & Dx & Dy & -> & ->); auto.
  rewrite E1 in E. injection E as <- <-.
  assert (T : energy_sum (flip_v a) = energy_sum a) by (apply (rsum2_flip_v (at2 a))).
  destruct (quad_value (flip_v a) x0 y0 r) as (bx2 & by2 & sx2 & sy2 & E2 & Dx2 & Dy2 & -> & ->); auto.
  { rewrite T; auto. }
  assert (Ds : forall i j, in_disc x0 y0 r i j <-> in_disc x0 y0 r (nr a - 1 - i) j).
  { intros i j. unfold in_disc. replace (nr a - 1 - i - y0) with (- (i - y0)) by lia. rewrite opp_IZR.
    replace ((- IZR (i - y0)) ^ 2)%R with (IZR (i - y0) ^ 2)%R by ring. tauto. }
  assert (Y : sy2 = (- sy)%R).
  { apply (disc_energy_unique _ _ _ _ _ _ _ Dy2). destruct Dy as (f & F & ->).
    exists (fun i j => - f (nr a - 1 - i)%Z j)%R. split.
    - intros i j [Hi Hj]. cbn [flip_v nr nc at2] in *. destruct (F (nr a - 1 - i) j) as [F1 F2]; [split; lia|].
      rewrite Ds. split; intros D.
      + rewrite F1 by auto. unfold code_side_y, side_y. replace (nr a - 1 - i - y0) with (- (i - y0)) by lia.
        rewrite Z.sgn_opp, opp_IZR. ring.
      + rewrite F2 by auto. ring.
    - cbn [flip_v nr nc]. rewrite rsum2_opp, rsum2_flip_v. reflexivity. }
  assert (X : sx2 = sx).
  { apply (disc_energy_unique _ _ _ _ _ _ _ Dx2). destruct Dx as (f & F & ->).
    exists (fun i j => f (nr a - 1 - i)%Z j). split.
    - intros i j [Hi Hj]. cbn [flip_v nr nc at2] in *. destruct (F (nr a - 1 - i) j) as [F1 F2]; [split; lia|].
      rewrite Ds. split; intros D.
      + rewrite F1 by auto. unfold code_side_x, side_x.
        replace (nr a - 1 - i =? y0) with (i =? y0); [ring|]. apply Bool.eq_iff_eq_true. rewrite !Z.eqb_eq. lia.
      + rewrite F2 by auto. ring.
    - cbn [flip_v nr nc]. rewrite rsum2_flip_v. reflexivity. }
  rewrite E2, T, X, Y. apply f_equal. f_equal. field; auto.
Qed.
Lemma quad_reject a x0 y0 r :
  (exists b, quadrant_energy_balance a x0 y0 r = Ok b) <-> (0 <= r)%R /\ 0 <= x0 < nr a /\ 0 <= y0 < nc a.
Proof.
  unfold quadrant_energy_balance. split.
  - intros (b & E).
    apply guard_ok in E as [G1 E]. apply guard_ok in E as [G2 E]. apply guard_ok in E as [G3 E].
    apply guard_ok in E as [G4 E]. apply guard_ok in E as [G5 _].
    apply Rleb_iff in G1. apply Z.leb_le in G2. apply Z.leb_le in G3. apply Z.ltb_lt in G4. apply Z.ltb_lt in G5.
    auto.
  - intros (Hr & Hx & Hy).
    rewrite (proj2 (Rleb_iff _ _) Hr), (proj2 (Z.leb_le 0 x0)), (proj2 (Z.leb_le 0 y0)) by lia.
    rewrite (proj2 (Z.ltb_lt x0 _)), (proj2 (Z.ltb_lt y0 _)) by lia. cbn [guard bind]. eauto.
Qed.

(** ** remove_piston_tip_tilt *)
Lemma plane_fitted ny nx c p : fitted 3 (plane_basis ny nx) c p =
  (c 0%Z * plane_basis ny nx p 0%Z + c 1%Z * plane_basis ny nx p 1%Z + c 2%Z * 1)%R.
Proof.
  unfold fitted. change 3 with (0 + 1 + 1 + 1). rewrite !rsum_succ, rsum_0 by lia.
  change (0 + 1 + 1) with 2. change (0 + 1) with 1. cbn [plane_basis]. ring.
Qed.
Lemma masked_ext m f g : (forall i j, in_arr m i j -> at2 m i j <> 0%R -> f i j = g i j) -> masked_sum m f = masked_sum m g.
Proof.
  intros H. apply rsum2_ext. intros i j Hi Hj. destruct (Req_EM_T (at2 m i j) 0); auto. apply H; auto. split; auto.
Qed.
Lemma masked_add m f g : masked_sum m (fun i j => f i j + g i j)%R = (masked_sum m f + masked_sum m g)%R.
Proof.
  unfold masked_sum. rewrite <- rsum2_add. apply rsum2_ext. intros. destruct (Req_EM_T _ _); ring.
Qed.
Lemma masked_scal m c f : masked_sum m (fun i j => c * f i j)%R = (c * masked_sum m f)%R.
Proof.
  unfold masked_sum. rewrite <- rsum2_scal. apply rsum2_ext. intros. destruct (Req_EM_T _ _); ring.
Qed.
Lemma masked_nonneg_zero m f : (forall i j, in_arr m i j -> at2 m i j <> 0%R -> (0 <= f i j)%R) -> masked_sum m f = 0%R ->
  forall i j, in_arr m i j -> at2 m i j <> 0%R -> f i j = 0%R.
Proof.
  intros P S i j [Hi Hj] N. unfold masked_sum in S.
  assert (P' : forall i j, 0 <= i < nr m -> 0 <= j < nc m -> (0 <= if Req_EM_T (at2 m i j) 0 then 0 else f i j)%R).
  { intros i' j' Hi' Hj'. destruct (Req_EM_T (at2 m i' j') 0); [lra|]. apply P; auto. split; auto. }
  pose proof (rsum2_nonneg_zero _ _ _ P' S i j Hi Hj) as Q. cbn beta in Q.
  destruct (Req_EM_T (at2 m i j) 0); [tauto|]. exact Q.
Qed.
Section Ptt.
Variable lstsq : lstsq_fun.
Hypothesis oracle : is_lstsq_oracle lstsq.
Lemma ptt_spec a m : same_shape a m = true -> bool_mask m ->
  exists out, remove_piston_tip_tilt lstsq a m = Ok out /\ nr out = nr a /\ nc out = nc a /\
   (forall i j, in_arr m i j -> at2 m i j = 0%R -> at2 out i j = 0%R) /\
   (exists p q r, forall i j, in_arr m i j -> at2 m i j <> 0%R -> at2 out i j = (at2 a i j - plane_at p q r i j)%R) /\
   masked_sum m (at2 out) = 0%R /\
   masked_sum m (fun i j => IZR j * at2 out i j)%R = 0%R /\
   masked_sum m (fun i j => IZR i * at2 out i j)%R = 0%R.
Proof.
  intros S B. unfold remove_piston_tip_tilt. rewrite S. rewrite (proj2 (bool_mask_count _ B)), Ztrunc_IZR.
  unfold reshape_ok. rewrite Z.eqb_refl. cbn [guard bind orb].
  apply same_shape_iff in S as [Sr Sc].
  set (c := lstsq _ _ _ _). eexists. split; [reflexivity|].
  pose proof (lstsq_normal _ _ _ _ _ (oracle (nonzero_points m) 3 (plane_basis (nr a) (nc a)) (fun p => at2 a (fst p) (snd p)))) as N.
  fold c in N. cbn [nr nc at2]. set (B0 := plane_basis (nr a) (nc a)) in *.
  set (out := fun i j => if Req_EM_T (at2 m i j) 0 then 0%R else _).
  assert (O : forall k, 0 <= k < 3 -> masked_sum m (fun i j => B0 (i, j) k * out i j)%R = 0%R).
  { intros k Hk. specialize (N k Hk). rewrite <- masked_lsum.
    rewrite <- (Rmult_0_r (-1)), <- N, <- lsum_scal. apply lsum_ext. intros [i j] I. apply in_nzp in I as [I Nz].
    cbn [fst snd]. unfold out. destruct (Req_EM_T (at2 m i j) 0); [tauto|].
    unfold B0. rewrite plane_fitted. ring. }
  repeat split; auto.
  - intros i j I Z0. unfold out. destruct (Req_EM_T (at2 m i j) 0); [auto|tauto].
  - exists (c 0%Z / IZR (nc a))%R, (c 1%Z / IZR (nr a))%R, (c 2%Z - c 0%Z / 2 - c 1%Z / 2)%R.
    intros i j [I1 I2] Nz. unfold out. destruct (Req_EM_T (at2 m i j) 0); [tauto|]. unfold plane_at, B0. cbn [plane_basis fst snd].
    assert (IZR (nr a) <> 0 /\ IZR (nc a) <> 0)%R by (split; apply not_0_IZR; lia). field. tauto.
  - etransitivity; [|apply (O 2); lia]. apply masked_ext. intros. unfold B0. cbn [plane_basis]. ring.
  - rewrite (masked_ext m _ (fun i j => IZR (nc a) * (B0 (i, j) 0%Z * out i j) + IZR (nc a) / 2 * (B0 (i, j) 2%Z * out i j))%R).
    + rewrite masked_add, !masked_scal, !O by lia. ring.
    + intros i j [I1 I2] _. cbn beta. change (if Req_EM_T (at2 m i j) 0 then 0%R else _) with (out i j). unfold B0. cbn [plane_basis fst snd].
      assert (IZR (nc a) <> 0)%R by (apply not_0_IZR; lia). field. auto.
  - rewrite (masked_ext m _ (fun i j => IZR (nr a) * (B0 (i, j) 1%Z * out i j) + IZR (nr a) / 2 * (B0 (i, j) 2%Z * out i j))%R).
    + rewrite masked_add, !masked_scal, !O by lia. ring.
    + intros i j [I1 I2] _. cbn beta. change (if Req_EM_T (at2 m i j) 0 then 0%R else _) with (out i j). unfold B0. cbn [plane_basis fst snd].
      assert (IZR (nr a) <> 0)%R by (apply not_0_IZR; lia). field. auto.
Qed.
(** The three orthogonality relations and the plane form determine the result. *)
Lemma ptt_unique m (f g : Z -> Z -> R) p q r :
  (forall i j, in_arr m i j -> at2 m i j <> 0%R -> f i j = (g i j - plane_at p q r i j)%R) ->
  masked_sum m f = 0%R -> masked_sum m (fun i j => IZR j * f i j)%R = 0%R -> masked_sum m (fun i j => IZR i * f i j)%R = 0%R ->
  masked_sum m g = 0%R -> masked_sum m (fun i j => IZR j * g i j)%R = 0%R -> masked_sum m (fun i j => IZR i * g i j)%R = 0%R ->
  forall i j, in_arr m i j -> at2 m i j <> 0%R -> f i j = g i j.
Proof.
  intros E F0 F1 F2 G0 G1 G2.
  assert (Z0 : masked_sum m (fun i j => plane_at p q r i j ^ 2)%R = 0%R).
  { rewrite (masked_ext m _ (fun i j => p * (IZR j * g i j) + (q * (IZR i * g i j) + (r * g i j +
       ((- p) * (IZR j * f i j) + ((- q) * (IZR i * f i j) + (- r) * f i j)))))%R).
    - rewrite !masked_add, !masked_scal, F0, F1, F2, G0, G1, G2. ring.
    - intros i j I N. rewrite (E i j I N). unfold plane_at. ring. }
  intros i j I N. rewrite (E i j I N).
  pose proof (masked_nonneg_zero m _ (fun i j _ _ => pow2_ge_0 _) Z0 i j I N) as Q. cbn beta in Q.
  assert (plane_at p q r i j = 0)%R by nra. lra.
Qed.
Lemma ptt_plane_invariant a b m p q r out : same_shape a m = true -> same_shape b a = true -> bool_mask m ->
  (forall i j, in_arr m i j -> at2 m i j <> 0%R -> at2 b i j = (at2 a i j + plane_at p q r i j)%R) ->
  remove_piston_tip_tilt lstsq a m = Ok out ->
  exists out', remove_piston_tip_tilt lstsq b m = Ok out' /\ aeq out' out.
Proof.
  intros S S' B E R. apply same_shape_iff in S as [S1 S2]. apply same_shape_iff in S' as [S1' S2'].
  destruct (ptt_spec a m) as (o & R1 & Nr & Nc & Z1 & (p1 & q1 & r1 & P1) & O1 & O2 & O3); auto; [apply same_shape_iff; split; congruence|].
  rewrite R in R1. injection R1 as <-.
  destruct (ptt_spec b m) as (o' & R' & Nr' & Nc' & Z1' & (p2 & q2 & r2 & P2) & O1' & O2' & O3'); auto; [apply same_shape_iff; split; congruence|].
  exists o'. split; auto. split; [congruence|split; [congruence|]]. intros i j [I1 I2].
  assert (I : in_arr m i j) by (split; lia).
  destruct (Req_EM_T (at2 m i j) 0) as [H|H].
  - rewrite Z1, Z1'; auto.
  - apply (ptt_unique m (at2 o') (at2 out) (p2 - p - p1)%R (q2 - q - q1)%R (r2 - r - r1)%R); auto.
    intros i' j' I' N'. rewrite P2, P1, E by auto. unfold plane_at. ring.
Qed.
Lemma ptt_idempotent a m out : same_shape a m = true -> bool_mask m -> remove_piston_tip_tilt lstsq a m = Ok out ->
  exists out', remove_piston_tip_tilt lstsq out m = Ok out' /\ aeq out' out.
Proof.
  intros S B R. pose proof S as S0. apply same_shape_iff in S0 as [S1 S2].
  destruct (ptt_spec a m S B) as (o & R1 & Nr & Nc & Z1 & (p1 & q1 & r1 & P1) & _).
  rewrite R in R1. injection R1 as <-.
  apply (ptt_plane_invariant a out m (- p1) (- q1) (- r1)); auto.
  - apply same_shape_iff. auto.
  - intros i j I N. rewrite P1 by auto. unfold plane_at. ring.
Qed.
Lemma ptt_plane_zero a m p q r : same_shape a m = true -> bool_mask m ->
  (forall i j, in_arr m i j -> at2 m i j <> 0%R -> at2 a i j = plane_at p q r i j) ->
  exists out, remove_piston_tip_tilt lstsq a m = Ok out /\ forall i j, in_arr m i j -> at2 out i j = 0%R.
Proof.
  intros S B E. destruct (ptt_spec a m S B) as (o & R1 & Nr & Nc & Z1 & (p1 & q1 & r1 & P1) & O1 & O2 & O3).
  exists o. split; auto. intros i j I. destruct (Req_EM_T (at2 m i j) 0) as [H|H]; auto.
  apply (ptt_unique m (at2 o) (fun _ _ => 0%R) (p1 - p) (q1 - q) (r1 - r)); auto.
  - intros i' j' I' N'. rewrite P1, E by auto. unfold plane_at. ring.
  - apply rsum2_all_zero. intros. destruct (Req_EM_T _ _); auto.
  - apply rsum2_all_zero. intros. destruct (Req_EM_T _ _); ring.
  - apply rsum2_all_zero. intros. destruct (Req_EM_T _ _); ring.
Qed.
Lemma ptt_best a m out p q r : same_shape a m = true -> bool_mask m -> remove_piston_tip_tilt lstsq a m = Ok out ->
  (masked_sum m (fun i j => at2 out i j ^ 2) <= masked_sum m (fun i j => (at2 a i j - plane_at p q r i j) ^ 2))%R.
Proof.
  intros S B R. destruct (ptt_spec a m S B) as (o & R1 & Nr & Nc & Z1 & (p1 & q1 & r1 & P1) & O1 & O2 & O3).
  rewrite R in R1. injection R1 as <-.
  set (D := fun i j => plane_at (p1 - p) (q1 - q) (r1 - r) i j).
  rewrite (masked_ext m (fun i j => (at2 a i j - plane_at p q r i j) ^ 2)%R
    (fun i j => at2 out i j ^ 2 + (2 * (p1 - p) * (IZR j * at2 out i j) + (2 * (q1 - q) * (IZR i * at2 out i j) +
       (2 * (r1 - r) * at2 out i j + D i j ^ 2))))%R).
  - rewrite !masked_add, !masked_scal. change (masked_sum m (fun i j => at2 out i j)) with (masked_sum m (at2 out)). rewrite O1, O2, O3.
    assert (0 <= masked_sum m (fun i j => D i j ^ 2))%R.
    { apply rsum2_nonneg. intros. destruct (Req_EM_T _ _); [lra|apply pow2_ge_0]. }
    lra.
  - intros i j I N. rewrite P1 by auto. unfold D, plane_at. ring.
Qed.
Lemma ptt_shape a m : same_shape a m = false -> remove_piston_tip_tilt lstsq a m = Err ValueError.
Proof. intros H. unfold remove_piston_tip_tilt. rewrite H. reflexivity. Qed.
End Ptt.

(** ** Concrete cases *)
Definition two_level : arr R := of_rows 0%R [[0; 3]]%R.
Lemma two_level_ok : exists m, ampthresh two_level 3 = Ok m.
Proof.
  destruct (ampthresh_total two_level 3) as [|E]; auto. exfalso. pose proof E as E0.
  apply ampthresh_err in E as [_ [H|[H|[(v & Mi & Ma)|(lo & hi & H & Mi & Ma & _ & Hi & V)]]]].
  - lia.
  - apply H. exists 0, 0. unfold in_arr. cbn. lia.
  - pose proof (proj2 Mi 0 0 ltac:(split; cbn; lia)) as Q1.
    pose proof (proj2 Ma 0 1 ltac:(split; cbn; lia)) as Q2.
    change (at2 two_level 0 0) with 0%R in Q1. change (at2 two_level 0 1) with 3%R in Q2. lra.
  - assert (L : lo = 0%R).
    { apply (min_unique two_level); auto. split; [exists 0, 0; split; [split; cbn; lia|reflexivity]|].
      intros i j [Hi' Hj]. cbn in Hi', Hj. assert (i = 0) as -> by lia.
      assert (j = 0 \/ j = 1) as [->| ->] by lia;
        [change (at2 two_level 0 0) with 0%R|change (at2 two_level 0 1) with 3%R]; lra. }
    assert (U : hi = 3%R).
    { apply (max_unique two_level); auto. split; [exists 0, 1; split; [split; cbn; lia|reflexivity]|].
      intros i j [Hi' Hj]. cbn in Hi', Hj. assert (i = 0) as -> by lia.
      assert (j = 0 \/ j = 1) as [->| ->] by lia;
        [change (at2 two_level 0 0) with 0%R|change (at2 two_level 0 1) with 3%R]; lra. }
    subst lo hi. apply (V 1); [lia|].
    assert (S : forall f, rsum2 f (nr two_level) (nc two_level) = (f 0%Z 0%Z + f 0%Z 1%Z)%R).
    { intros f. unfold rsum2. change (nr two_level) with 1. change (nc two_level) with (1 + 1).
      rewrite rsum_one, rsum_succ, rsum_one by lia. reflexivity. }
    assert (B0 : in_arr two_level 0 0) by (unfold in_arr; cbn; lia).
    assert (B1 : in_arr two_level 0 1) by (unfold in_arr; cbn; lia).
    destruct (Hi 0 ltac:(lia)) as (f0 & F0 & E00). rewrite S in E00.
    destruct (Hi 1 ltac:(lia)) as (f1 & F1 & E1). rewrite S in E1.
    destruct (Hi 2 ltac:(lia)) as (f2 & F2 & E2). rewrite S in E2.
    assert (V0 : at2 two_level 0 0 = 0%R) by reflexivity. assert (V1 : at2 two_level 0 1 = 3%R) by reflexivity.
    unfold in_bin in *.
    destruct (F0 0 0 B0) as [A0 _]. destruct (F0 0 1 B1) as [_ A1].
    destruct (F1 0 0 B0) as [_ A2]. destruct (F1 0 1 B1) as [_ A3].
    destruct (F2 0 0 B0) as [_ A4]. destruct (F2 0 1 B1) as [A5 _].
    rewrite V0 in A0, A2, A4. rewrite V1 in A1, A3, A5.
    rewrite A0 in E00 by lra. rewrite A1 in E00 by (intros [? [?|[? ?]]]; [lra|lia]).
    rewrite A2 in E1 by lra. rewrite A3 in E1 by (intros [? [?|[? ?]]]; [lra|lia]).
    rewrite A4 in E2 by lra. rewrite A5 in E2 by (split; [lra|right; split; [reflexivity|lra]]).
    unfold valley. cbn. rewrite E00, E1, E2. lra.
Qed.
Definition ramp3 : vec R := Vec 3 (fun i => IZR i - 1)%R.
Lemma ramp3_distinct : three_distinct ramp3.
Proof. exists 0, 1, 2. cbn. repeat split; lia || lra. Qed.
Definition ones33 : arr R := afull 3 3 1%R.
Lemma ones33_bool : bool_mask ones33. Proof. intros i j _. right. reflexivity. Qed.
Lemma ones33_unisolvent : unisolvent2 ramp3 ramp3 ones33.
Proof.
  intros a b c d e f H. unfold quad2 in H.
  assert (G : forall i j, 0 <= i < 3 -> 0 <= j < 3 ->
    (a * (IZR j - 1) ^ 2 + b * (IZR j - 1) * (IZR i - 1) + c * (IZR i - 1) ^ 2 + d * (IZR j - 1) + e * (IZR i - 1) + f = 0)%R).
  { intros i j Hi Hj. apply H; [split; auto|]. cbn. lra. }
  pose proof (G 0 0 ltac:(lia) ltac:(lia)). pose proof (G 1 1 ltac:(lia) ltac:(lia)).
  pose proof (G 0 1 ltac:(lia) ltac:(lia)). pose proof (G 2 1 ltac:(lia) ltac:(lia)).
  pose proof (G 1 0 ltac:(lia) ltac:(lia)). pose proof (G 1 2 ltac:(lia) ltac:(lia)).
  repeat split; lra.
Qed.
Lemma opt2_saddle_raises lstsq : is_lstsq_oracle lstsq ->
  find_optimum_2d lstsq ramp3 ramp3 (Arr 3 3 (fun i j => (IZR j - 1) * (IZR i - 1))%R) ones33
    = Err (Custom "QuadraticException").
Proof.
  intros O. rewrite (opt2_exact lstsq O _ _ _ _ 0 1 0 0 0 0); try reflexivity.
  - destruct (Rlt_dec _ _); [reflexivity|]. destruct (Rlt_dec _ _) as [|N]; [reflexivity|].
    exfalso. apply N. rewrite Rmult_0_r, Rabs_R0. assert (0 < / 10 ^ 15)%R by (apply Rinv_0_lt_compat, pow_lt; lra). lra.
  - apply ones33_bool.
  - apply ones33_unisolvent.
  - intros i j _ _. unfold quad2. cbn. ring.
Qed.
Lemma opt2_bowl lstsq : is_lstsq_oracle lstsq ->
  find_optimum_2d lstsq ramp3 ramp3 (Arr 3 3 (fun i j => (IZR j - 1) ^ 2 + (IZR i - 1) ^ 2 + 2 * (IZR j - 1))%R) ones33
    = Ok (-1, 0)%R.
Proof.
  intros O. rewrite (opt2_exact lstsq O _ _ _ _ 1 0 1 2 0 0); try reflexivity.
  - assert (T : (/ 10 ^ 15 <= 1)%R) by (rewrite <- Rinv_1; apply Rinv_le_contravar; [lra|apply pow_R1_Rle; lra]).
    assert (0 < / 10 ^ 15)%R by (apply Rinv_0_lt_compat, pow_lt; lra).
    destruct (Rlt_dec _ _) as [L|_].
    { exfalso. replace (0 ^ 2 - 4 * 1 * 1)%R with (- (4))%R in L by ring. rewrite Rabs_Ropp, Rabs_right in L by lra. lra. }
    destruct (Rlt_dec _ _) as [L|_].
    { exfalso. rewrite Rabs_right in L by lra. lra. }
    apply f_equal. f_equal; field.
  - apply ones33_bool.
  - apply ones33_unisolvent.
  - intros i j _ _. unfold quad2. cbn. ring.
Qed.
(** All the light on the origin's row, to the right: balance 2, not 1. *)
Definition row_right : arr R := of_rows 0%R [[0; 0; 0]; [0; 0; 1]; [0; 0; 0]]%R.
Lemma row_right_at i j : in_arr row_right i j -> at2 row_right i j = if (i =? 1) && (j =? 2) then 1%R else 0%R.
Proof.
  intros [Hi Hj]. cbn in Hi, Hj.
  assert (i = 0 \/ i = 1 \/ i = 2) as [->|[->| ->]] by lia; assert (j = 0 \/ j = 1 \/ j = 2) as [->|[->| ->]] by lia; reflexivity.
Qed.
Lemma row_right_sum w : rsum2 (fun i j => w i j * at2 row_right i j)%R 3 3 = w 1%Z 2%Z.
Proof.
  rewrite <- (rsum2_delta w 3 3 1 2) by lia. apply rsum2_ext. intros i j Hi Hj.
  rewrite row_right_at by (split; auto). destruct ((i =? 1) && (j =? 2)); ring.
Qed.
Lemma row_right_energy : energy_sum row_right = 1%R.
Proof.
  transitivity (rsum2 (fun i j => 1 * at2 row_right i j)%R 3 3); [apply rsum2_ext; intros; ring|].
  rewrite (row_right_sum (fun _ _ => 1%R)). reflexivity.
Qed.
Lemma row_right_double : exists b, quadrant_energy_balance row_right 1 1 5 = Ok (2, b)%R.
Proof.
  destruct (quad_value row_right 1 1 5) as (bx & by_ & sx & sy & E & Dx & _ & Hx & _); try (cbn; lia); try lra.
  { rewrite row_right_energy. lra. }
  exists by_. rewrite E. rewrite Hx, row_right_energy.
  assert (sx = 2%R) as ->; [|apply f_equal; f_equal; field].
  apply (disc_energy_unique _ _ _ _ _ _ _ Dx).
  exists (fun i j => (code_side_x 1 1 i j * at2 row_right i j)%R). split.
  - intros i j [Hi Hj]. split; auto. intros N. exfalso. apply N. unfold in_disc. cbn in Hi, Hj.
    assert (-1 <= IZR (j - 1) <= 1)%R by (split; apply IZR_le; lia).
    assert (-1 <= IZR (i - 1) <= 1)%R by (split; apply IZR_le; lia). nra.
  - change (nr row_right) with 3. change (nc row_right) with 3. rewrite row_right_sum.
    unfold code_side_x, side_x. cbn. ring.
Qed.
(** The true right-minus-left balance of that image is 1. *)
Lemma row_right_true s : disc_energy row_right 1 1 5 (side_x 1) s -> (s / energy_sum row_right)%R = 1%R.
Proof.
  intros D. rewrite row_right_energy. assert (s = 1%R) as ->; [|field].
  apply (disc_energy_unique _ _ _ _ _ _ _ D).
  exists (fun i j => (side_x 1 i j * at2 row_right i j)%R). split.
  - intros i j [Hi Hj]. split; auto. intros N. exfalso. apply N. unfold in_disc. cbn in Hi, Hj.
    assert (-1 <= IZR (j - 1) <= 1)%R by (split; apply IZR_le; lia).
    assert (-1 <= IZR (i - 1) <= 1)%R by (split; apply IZR_le; lia). nra.
  - change (nr row_right) with 3. change (nc row_right) with 3. rewrite row_right_sum.
    unfold side_x. reflexivity.
Qed.
