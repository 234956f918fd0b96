(** The two-dimensional not-a-knot spline: existence, uniqueness, exactness, linearity, symmetry. *)
From Coq Require Import ZArith List Reals Lra Lia Psatz Sorted Permutation.
From Verif.Base Require Import Arr Vec Sums.
From Verif.Model Require Import Dm.
From Verif.Spec Require Import SplineSpec BiSplineSpec.
From Verif.Proofs Require Import SplineP.
Import ListNotations.
Open Scope R_scope.

(** ** The list of samples *)
Lemma samples_nat n xs v : samples (Z.of_nat n) xs v = map (fun k => (xs (Z.of_nat k), v (Z.of_nat k))) (seq 0 n).
Proof. unfold samples, zrange. rewrite Nat2Z.id, map_map. reflexivity. Qed.
Lemma length_samples n xs v : length (samples n xs v) = Z.to_nat n.
Proof. unfold samples, zrange. rewrite !map_length, seq_length. reflexivity. Qed.
Lemma nth_samples n xs v k : (k < Z.to_nat n)%nat -> nth k (samples n xs v) (0, 0) = (xs (Z.of_nat k), v (Z.of_nat k)).
Proof.
  intros H. unfold samples, zrange. rewrite map_map.
  rewrite (nth_indep _ _ ((fun k => (xs (Z.of_nat k), v (Z.of_nat k))) 0%nat)) by (rewrite map_length, seq_length; auto).
  rewrite (map_nth (fun k => (xs (Z.of_nat k), v (Z.of_nat k)))). rewrite seq_nth by auto. reflexivity.
Qed.
Lemma knot_samples n xs v k : (k < Z.to_nat n)%nat -> knot (samples n xs v) k = xs (Z.of_nat k).
Proof. intros H. unfold knot. rewrite nth_samples by auto. reflexivity. Qed.
Lemma level_samples n xs v k : (k < Z.to_nat n)%nat -> level (samples n xs v) k = v (Z.of_nat k).
Proof. intros H. unfold level. rewrite nth_samples by auto. reflexivity. Qed.
Lemma samples_ext n xs v v' : (forall k, (0 <= k < n)%Z -> v k = v' k) -> samples n xs v = samples n xs v'.
Proof. intros H. unfold samples. apply map_ext_in. intros k I. apply in_zrange in I. rewrite H; auto. Qed.
Lemma samples_sorted n xs v : grows n xs -> StronglySorted Rlt (map fst (samples n xs v)).
Proof.
  intros G. assert (E : map fst (samples n xs v) = map xs (zrange n)) by (unfold samples; rewrite map_map; reflexivity).
  rewrite E. unfold zrange. rewrite map_map.
  assert (A : forall m b, (Z.of_nat (b + m) <= n)%Z -> StronglySorted Rlt (map (fun k => xs (Z.of_nat k)) (seq b m))).
  { induction m as [|m IH]; intros b Hb; cbn [seq map]; constructor.
    - apply IH. lia.
    - apply Forall_forall. intros z Hz. apply in_map_iff in Hz as (k & <- & Hk). apply in_seq in Hk. apply G; lia. }
  destruct (Z.le_gt_cases 0 n); [apply A; lia|]. replace (Z.to_nat n) with 0%nat by lia. constructor.
Qed.

(** ** Linear combinations and reflection of splines *)
Definition combine (a b : R) (p q : cubic) : cubic :=
  Cubic (a * q0 p + b * q0 q) (a * q1 p + b * q1 q) (a * q2 p + b * q2 q) (a * q3 p + b * q3 q).
Lemma spline_combine n xs v w s t a b : cubic_spline (samples n xs v) s -> cubic_spline (samples n xs w) t ->
  cubic_spline (samples n xs (fun k => a * v k + b * w k)) (fun x => a * s x + b * t x).
Proof.
  intros (P & V & I & C & F & L) (P' & V' & I' & C' & F' & L'). rewrite !length_samples in *.
  exists (fun k => combine a b (P k) (P' k)). rewrite !length_samples.
  split; [|split; [|split; [|split]]].
  - intros k x Hk Hx. rewrite !knot_samples in Hx by lia. rewrite (V k x), (V' k x); auto; [|rewrite !knot_samples by lia; auto..].
    unfold val, combine; cbn [q0 q1 q2 q3]. ring.
  - intros k Hk. specialize (I k Hk). specialize (I' k Hk). rewrite !knot_samples, !level_samples in * by auto.
    rewrite I, I'. reflexivity.
  - intros k Hk. specialize (C k Hk). specialize (C' k Hk). rewrite !knot_samples in * by lia.
    unfold slope, bend, combine in *; cbn [q0 q1 q2 q3]. set (x := xs _) in *. destruct C as [C1 C2], C' as [C3 C4]. split; nra.
  - cbn [combine q3]. rewrite F, F'. reflexivity.
  - cbn [combine q3]. rewrite L, L'. reflexivity.
Qed.
Lemma spline_fun_ext l s t : cubic_spline l s -> (forall x, s x = t x) -> cubic_spline l t.
Proof.
  intros (P & V & I & H) E. exists P. split; [|split; [|exact H]].
  - intros k x Hk Hx. rewrite <- E. auto.
  - intros k Hk. rewrite <- E. auto.
Qed.
Lemma spline_zero n xs : cubic_spline (samples n xs (fun _ => 0)) (fun _ => 0).
Proof.
  exists (fun _ => Cubic 0 0 0 0). rewrite !length_samples. split; [|split; [|split; [|split; reflexivity]]].
  - intros. unfold val; cbn. ring.
  - intros k Hk. rewrite level_samples by auto. reflexivity.
  - intros. split; reflexivity.
Qed.
Lemma spline_sum n xs (v : Z -> Z -> R) (c : Z -> R) (s : Z -> R -> R) m : (0 <= m)%Z ->
  (forall k, (0 <= k < m)%Z -> cubic_spline (samples n xs (v k)) (s k)) ->
  cubic_spline (samples n xs (fun i => rsum (fun k => c k * v k i) m)) (fun x => rsum (fun k => c k * s k x) m).
Proof.
  intros Hm. revert m Hm. refine (Zlt_0_ind _ _). intros m IH Hm H. destruct (Z.eq_dec m 0) as [->|N].
  - eapply spline_fun_ext; [|intros x; symmetry; apply rsum_0; lia].
    erewrite samples_ext; [apply spline_zero|]. intros k Hk. apply rsum_0. lia.
  - assert (S1 := spline_combine n xs _ _ _ _ 1 (c (m - 1)%Z) (IH (m - 1)%Z ltac:(lia) ltac:(intros; apply H; lia)) (H (m - 1)%Z ltac:(lia))).
    assert (E : forall (g : Z -> R), rsum g m = rsum g (m - 1) + g (m - 1)%Z).
    { intros g. rewrite <- rsum_succ by lia. f_equal. lia. }
    apply (spline_fun_ext _ (fun x => 1 * rsum (fun k => c k * s k x) (m - 1) + c (m - 1)%Z * s (m - 1)%Z x));
      [|intros x; rewrite E; ring].
    erewrite samples_ext; [exact S1|]. intros k Hk. cbv beta. rewrite E. ring.
Qed.
(** The polynomial p (c x + b). *)
Definition compose (p : cubic) (c b : R) : cubic := Cubic (val p b) (c * slope p b) (c ^ 2 * (bend p b / 2)) (c ^ 3 * q3 p).
Lemma compose_val p c b x : val (compose p c b) x = val p (c * x + b).
Proof. unfold compose, val, slope, bend; cbn [q0 q1 q2 q3]. field. Qed.
Lemma compose_slope p c b x : slope (compose p c b) x = c * slope p (c * x + b).
Proof. unfold compose, val, slope, bend; cbn [q0 q1 q2 q3]. field. Qed.
Lemma compose_bend p c b x : bend (compose p c b) x = c ^ 2 * bend p (c * x + b).
Proof. unfold compose, val, slope, bend; cbn [q0 q1 q2 q3]. field. Qed.
(** Reflecting a spline on a symmetric grid. *)
Lemma spline_mirror n xs v s t : (4 <= n)%Z -> (forall k, (0 <= k < n)%Z -> xs (n - 1 - k)%Z = t - xs k) ->
  cubic_spline (samples n xs v) s -> cubic_spline (samples n xs (fun k => v (n - 1 - k)%Z)) (fun x => s (t - x)).
Proof.
  intros Hn Sym (P & V & I & C & F & L). rewrite !length_samples in *. set (N := Z.to_nat n) in *.
  assert (K : forall k, (k < N)%nat -> xs (Z.of_nat (N - 1 - k)) = t - xs (Z.of_nat k)).
  { intros k Hk. rewrite <- Sym by lia. f_equal. lia. }
  exists (fun k => compose (P (N - 2 - k)%nat) (-1) t). rewrite !length_samples. fold N.
  split; [|split; [|split; [|split]]].
  - intros k x Hk Hx. rewrite !knot_samples in Hx by lia. rewrite (V (N - 2 - k)%nat); [|lia|].
    + rewrite compose_val. f_equal. ring.
    + rewrite !knot_samples by lia. replace (N - 2 - k)%nat with (N - 1 - (k + 1))%nat at 1 by lia.
      replace (N - 2 - k + 1)%nat with (N - 1 - k)%nat by lia. rewrite !K by lia. lra.
  - intros k Hk. specialize (I (N - 1 - k)%nat ltac:(lia)). rewrite !knot_samples, !level_samples in * by lia.
    rewrite K in I by auto. rewrite I. f_equal. lia.
  - intros k Hk. specialize (C (N - 3 - k)%nat ltac:(lia)). rewrite !knot_samples in * by lia.
    replace (N - 3 - k + 1)%nat with (N - 1 - (k + 1))%nat in C by lia. rewrite !K in C by lia.
    replace (N - 2 - k)%nat with (N - 1 - (k + 1))%nat by lia. replace (N - 2 - (k + 1))%nat with (N - 3 - k)%nat by lia.
    rewrite !compose_slope, !compose_bend. set (x := xs _) in *. replace (-1 * x + t) with (t - x) by ring.
    destruct C as [C1 C2]. rewrite C1, C2. auto.
  - cbn [compose q3]. replace (N - 2 - 0)%nat with (N - 2)%nat by lia. replace (N - 2 - 1)%nat with (N - 3)%nat by lia.
    rewrite L. reflexivity.
  - cbn [compose q3]. replace (N - 2 - (N - 3))%nat with 1%nat by lia. replace (N - 2 - (N - 2))%nat with 0%nat by lia.
    rewrite F. reflexivity.
Qed.
(** Changing the unit of the abscissa. *)
Lemma spline_scale n xs v s p : 0 < p -> cubic_spline (samples n xs v) s ->
  cubic_spline (samples n (fun k => xs k / p) v) (fun x => s (x * p)).
Proof.
  intros Hp (P & V & I & C & F & L). rewrite !length_samples in *.
  assert (Q : forall z, z / p * p = z) by (intros; field; lra).
  exists (fun k => compose (P k) p 0). rewrite !length_samples. split; [|split; [|split; [|split]]].
  - intros k x Hk Hx. rewrite !knot_samples in Hx by lia. rewrite (V k); [|lia|].
    + rewrite compose_val. f_equal. ring.
    + rewrite !knot_samples by lia. rewrite <- (Q (xs (Z.of_nat k))), <- (Q (xs (Z.of_nat (k + 1)))). split; apply Rmult_le_compat_r; lra.
  - intros k Hk. specialize (I k Hk). rewrite !knot_samples, !level_samples in * by lia. rewrite Q. exact I.
  - intros k Hk. specialize (C k Hk). rewrite !knot_samples in * by lia. rewrite !compose_slope, !compose_bend.
    set (x := xs _) in *. replace (p * (x / p) + 0) with x by (field; lra). destruct C as [C1 C2]. rewrite C1, C2. auto.
  - cbn [compose q3]. rewrite F. reflexivity.
  - cbn [compose q3]. rewrite L. reflexivity.
Qed.
Lemma spline_poly n xs v p : (forall k, (0 <= k < n)%Z -> v k = val p (xs k)) -> cubic_spline (samples n xs v) (val p).
Proof.
  intros H. exists (fun _ => p). rewrite !length_samples. split; [reflexivity|]. split; [|repeat split; reflexivity].
  intros k Hk. rewrite knot_samples, level_samples by auto. symmetry. apply H. lia.
Qed.

(** ** Uniqueness and exactness on sampled grids *)
Lemma range_knots n xs v (x : R) : (4 <= n)%Z -> xs 0%Z <= x <= xs (n - 1)%Z ->
  knot (samples n xs v) 0 <= x <= knot (samples n xs v) (Z.to_nat n - 4 + 3).
Proof. intros Hn H. rewrite !knot_samples by lia. replace (Z.of_nat (Z.to_nat n - 4 + 3)) with (n - 1)%Z by lia. exact H. Qed.
Lemma samples_unique n xs v s t : (4 <= n)%Z -> grows n xs -> cubic_spline (samples n xs v) s -> cubic_spline (samples n xs v) t ->
  forall x, xs 0%Z <= x <= xs (n - 1)%Z -> s x = t x.
Proof.
  intros Hn G Hs Ht x Hx. apply (spline_unique (samples n xs v) (Z.to_nat n - 4)) with (s := s) (s' := t); auto.
  - rewrite length_samples. lia.
  - apply samples_sorted. exact G.
  - apply range_knots; auto.
Qed.
Lemma samples_exact n xs v s p : (4 <= n)%Z -> grows n xs -> cubic_spline (samples n xs v) s ->
  (forall k, (0 <= k < n)%Z -> v k = val p (xs k)) -> forall x, xs 0%Z <= x <= xs (n - 1)%Z -> s x = val p x.
Proof.
  intros Hn G Hs E x Hx. apply (spline_cubic (samples n xs v) (Z.to_nat n - 4)) with (s := s); auto.
  - rewrite length_samples. lia.
  - apply samples_sorted. exact G.
  - intros k Hk. rewrite knot_samples, level_samples by lia. apply E. lia.
  - apply range_knots; auto.
Qed.
Lemma samples_at n xs v s : cubic_spline (samples n xs v) s -> forall k, (0 <= k < n)%Z -> s (xs k) = v k.
Proof.
  intros (P & _ & I & _) k Hk. specialize (I (Z.to_nat k)). rewrite length_samples, knot_samples, level_samples in I by lia.
  rewrite Z2Nat.id in I by lia. apply I. lia.
Qed.
Lemma grid_bounds n xs k : grows n xs -> (0 <= k < n)%Z -> xs 0%Z <= xs k <= xs (n - 1)%Z.
Proof.
  intros G Hk. split.
  - destruct (Z.eq_dec k 0) as [->|]; [lra|]. apply Rlt_le, G; lia.
  - destruct (Z.eq_dec k (n - 1)) as [->|]; [lra|]. apply Rlt_le, G; lia.
Qed.
Lemma bicubic_at ys xs a f i j : (4 <= nr a)%Z -> (4 <= nc a)%Z -> grows (nc a) xs -> bicubic_spline ys xs a f ->
  in_arr a i j -> f (ys i) (xs j) = at2 a i j.
Proof.
  intros Hr Hc G (row & A & B) [Hi Hj]. specialize (B (xs j) (grid_bounds _ _ _ G Hj)).
  rewrite (samples_at _ _ _ _ B i Hi). rewrite (samples_at _ _ _ _ (A i Hi) j Hj). reflexivity.
Qed.
Lemma bicubic_unique ys xs a b f g : aeq a b -> (4 <= nr a)%Z -> (4 <= nc a)%Z -> grows (nr a) ys -> grows (nc a) xs ->
  bicubic_spline ys xs a f -> bicubic_spline ys xs b g ->
  forall y x, ys 0%Z <= y <= ys (nr a - 1)%Z -> xs 0%Z <= x <= xs (nc a - 1)%Z -> f y x = g y x.
Proof.
  intros (E1 & E2 & E3) Hr Hc Gy Gx (row & A & B) (row' & A' & B') y x Hy Hx.
  rewrite <- E1, <- E2 in A', B'. specialize (B x Hx). specialize (B' x Hx).
  refine (samples_unique (nr a) ys (fun i => row i x) (fun y => f y x) (fun y => g y x) Hr Gy B _ y Hy).
  erewrite samples_ext; [exact B'|]. intros i Hi. cbv beta.
  refine (samples_unique (nc a) xs (at2 a i) (row i) (row' i) Hc Gx (A i Hi) _ x Hx).
  erewrite samples_ext; [exact (A' i Hi)|]. intros j Hj. apply E3. split; auto.
Qed.
Definition across (c : nat -> cubic) (y : R) : cubic :=
  let g (q : cubic -> R) := q (c 0%nat) + q (c 1%nat) * y + q (c 2%nat) * y ^ 2 + q (c 3%nat) * y ^ 3 in
  Cubic (g q0) (g q1) (g q2) (g q3).
Lemma across_val c y x : val (across c y) x = bicubic c y x.
Proof. unfold across, bicubic, val; cbn [q0 q1 q2 q3]. ring. Qed.
Lemma bicubic_poly ys xs a c : (forall i j, in_arr a i j -> at2 a i j = bicubic c (ys i) (xs j)) -> bicubic_spline ys xs a (bicubic c).
Proof.
  intros E. exists (fun i => val (across c (ys i))). split.
  - intros i Hi. apply spline_poly. intros j Hj. rewrite across_val. apply E. split; auto.
  - intros x Hx. apply (spline_fun_ext _ (val (Cubic (val (c 0%nat) x) (val (c 1%nat) x) (val (c 2%nat) x) (val (c 3%nat) x)))); [|reflexivity].
    apply spline_poly. intros i Hi. apply across_val.
Qed.
Lemma div_le p a b : 0 < p -> a / p <= b -> a <= b * p.
Proof. intros Hp H. replace a with (a / p * p) by (field; lra). apply Rmult_le_compat_r; lra. Qed.
Lemma le_div p a b : 0 < p -> a <= b / p -> a * p <= b.
Proof. intros Hp H. replace b with (b / p * p) by (field; lra). apply Rmult_le_compat_r; lra. Qed.
Lemma bicubic_scale ys xs a f p q : 0 < p -> 0 < q -> bicubic_spline ys xs a f ->
  bicubic_spline (fun i => ys i / p) (fun j => xs j / q) a (fun y x => f (y * p) (x * q)).
Proof.
  intros Hp Hq (row & A & B). exists (fun i x => row i (x * q)). split.
  - intros i Hi. apply spline_scale; auto.
  - intros x [Hx1 Hx2]. apply (spline_scale (nr a) ys _ (fun y => f y (x * q)) p Hp). apply B. split; [apply div_le|apply le_div]; auto.
Qed.
Lemma bicubic_flip ys xs a f t : (4 <= nc a)%Z -> (forall k, (0 <= k < nc a)%Z -> xs (nc a - 1 - k)%Z = t - xs k) ->
  bicubic_spline ys xs a f -> bicubic_spline ys xs (fliplr a) (fun y x => f y (t - x)).
Proof.
  intros Hc Sym (row & A & B). exists (fun i x => row i (t - x)). cbn [fliplr nr nc at2]. split.
  - intros i Hi. exact (spline_mirror (nc a) xs (at2 a i) (row i) t Hc Sym (A i Hi)).
  - intros x Hx. apply B. pose proof (Sym 0%Z ltac:(lia)) as E. rewrite Z.sub_0_r in E. lra.
Qed.
Lemma bicubic_grid ys xs ys' xs' a f : (forall i, (0 <= i < nr a)%Z -> ys i = ys' i) -> (forall j, (0 <= j < nc a)%Z -> xs j = xs' j) ->
  (0 < nc a)%Z -> bicubic_spline ys xs a f -> bicubic_spline ys' xs' a f.
Proof.
  intros Ey Ex Hc (row & A & B). exists row. split.
  - intros i Hi. specialize (A i Hi). unfold samples in *.
    erewrite map_ext_in; [exact A|]. intros k I. apply in_zrange in I. cbv beta. f_equal. symmetry. auto.
  - intros x Hx. rewrite <- !Ex in Hx by lia. specialize (B x Hx). unfold samples in *.
    erewrite map_ext_in; [exact B|]. intros k I. apply in_zrange in I. cbv beta. f_equal. symmetry. auto.
Qed.

(** ** A reference instance, as a sum over cardinal splines *)
Definition clampR (n : Z) (xs : Z -> R) (x : R) : R := nearest_in (xs 0%Z) (xs (n - 1)%Z) x.
Definition unit_at (k i : Z) : R := if (i =? k)%Z then 1 else 0.
(** With fewer than four samples there is no such spline; the value is then one at the node and zero elsewhere. *)
Definition cardinal (n : Z) (xs : Z -> R) (k : Z) (x : R) : R :=
  if (4 <=? n)%Z then scipy_ref (samples n xs (unit_at k)) (clampR n xs x)
  else if Req_EM_T x (xs k) then 1 else 0.
Definition tensor (ny : Z) (ys : Z -> R) (nx : Z) (xs : Z -> R) (a : arr R) (y x : R) : R :=
  rsum2 (fun i j => at2 a i j * (cardinal ny ys i y * cardinal nx xs j x)) ny nx.

Lemma clampR_in n xs x : xs 0%Z <= xs (n - 1)%Z -> xs 0%Z <= clampR n xs x <= xs (n - 1)%Z.
Proof. intros H. unfold clampR, nearest_in, Rmax, Rmin. repeat destruct Rle_dec; lra. Qed.
Lemma clampR_id n xs x : xs 0%Z <= x <= xs (n - 1)%Z -> clampR n xs x = x.
Proof. intros H. unfold clampR, nearest_in. rewrite Rmin_left by lra. apply Rmax_right. lra. Qed.
Lemma spline_local l s t : cubic_spline l s -> (forall x, (exists k, (k + 1 < length l)%nat /\ knot l k <= x <= knot l (k + 1)) -> s x = t x) ->
  (forall k, (k < length l)%nat -> s (knot l k) = t (knot l k)) -> cubic_spline l t.
Proof.
  intros (P & V & I & H) E E'. exists P. split; [|split; [|exact H]].
  - intros k x Hk Hx. rewrite <- E; eauto.
  - intros k Hk. rewrite <- E'; auto.
Qed.
Lemma cardinal_spline n xs k : (4 <= n)%Z -> grows n xs -> cubic_spline (samples n xs (unit_at k)) (cardinal n xs k).
Proof.
  intros Hn G. apply (spline_local _ (scipy_ref (samples n xs (unit_at k)))).
  - apply scipy_ref_ok; [rewrite length_samples; lia|apply Permutation_refl|apply samples_sorted; auto].
  - intros x (i & Hi & Hx). rewrite length_samples in Hi. rewrite !knot_samples in Hx by lia.
    unfold cardinal. rewrite (proj2 (Z.leb_le 4 n)) by lia. rewrite clampR_id; auto.
    pose proof (grid_bounds n xs (Z.of_nat i) G ltac:(lia)). pose proof (grid_bounds n xs (Z.of_nat (i + 1)) G ltac:(lia)). lra.
  - intros i Hi. rewrite length_samples in Hi. rewrite knot_samples by auto.
    unfold cardinal. rewrite (proj2 (Z.leb_le 4 n)) by lia. rewrite clampR_id; auto. apply grid_bounds; auto; lia.
Qed.
Lemma sum_unit v n k : (0 <= k < n)%Z -> rsum (fun i => v i * unit_at i k) n = v k.
Proof.
  intros H. transitivity (rsum (fun i => if (i =? k)%Z then v i else 0) n); [|exact (rsum_delta v n k H)]. apply rsum_ext. intros i Hi. unfold unit_at.
  rewrite (Z.eqb_sym k i). destruct (i =? k)%Z; ring.
Qed.
Lemma sums_spline n xs v : (4 <= n)%Z -> grows n xs ->
  cubic_spline (samples n xs v) (fun x => rsum (fun k => v k * cardinal n xs k x) n).
Proof.
  intros Hn G. erewrite samples_ext; [exact (spline_sum n xs unit_at v (cardinal n xs) n ltac:(lia) (fun k _ => cardinal_spline n xs k Hn G))|].
  intros k Hk. symmetry. apply sum_unit. exact Hk.
Qed.
Lemma cardinal_at n xs k i : grows n xs -> (0 <= i < n)%Z -> (0 <= k < n)%Z -> cardinal n xs k (xs i) = unit_at k i.
Proof.
  intros G Hi Hk. destruct (Z.leb_spec 4 n) as [L|L].
  - apply (samples_at n xs _ _ (cardinal_spline n xs k L G) i Hi).
  - unfold cardinal, unit_at. rewrite (proj2 (Z.leb_gt 4 n)) by lia. destruct (Z.eqb_spec i k) as [->|N].
    + destruct (Req_EM_T (xs k) (xs k)); congruence.
    + destruct (Req_EM_T (xs i) (xs k)) as [E|E]; auto. exfalso.
      destruct (Z.lt_total i k) as [H|[H|H]]; [|lia|]; [pose proof (G i k ltac:(lia) ltac:(lia))|pose proof (G k i ltac:(lia) ltac:(lia))]; lra.
Qed.
Lemma tensor_rows ny ys nx xs a y x :
  tensor ny ys nx xs a y x = rsum (fun i => rsum (fun j => at2 a i j * cardinal nx xs j x) nx * cardinal ny ys i y) ny.
Proof.
  unfold tensor, rsum2. apply rsum_ext. intros i Hi. rewrite <- rsum_scal_r. apply rsum_ext. intros j Hj. ring.
Qed.
Lemma tensor_bicubic ys xs a : (4 <= nr a)%Z -> (4 <= nc a)%Z -> grows (nr a) ys -> grows (nc a) xs ->
  bicubic_spline ys xs a (tensor (nr a) ys (nc a) xs a).
Proof.
  intros Hr Hc Gy Gx. exists (fun i x => rsum (fun j => at2 a i j * cardinal (nc a) xs j x) (nc a)). split.
  - intros i Hi. apply sums_spline; auto.
  - intros x Hx. eapply spline_fun_ext; [apply (sums_spline (nr a) ys); auto|]. intros y. symmetry. apply tensor_rows.
Qed.
Definition bispline_nak (ys xs : Z -> R) (a : arr R) (y x : R) : R := tensor (nr a) ys (nc a) xs a y x.
(** It passes through its samples on grids of any size. *)
Lemma tensor_at ny ys nx xs a i j : grows ny ys -> grows nx xs -> (0 <= i < ny)%Z -> (0 <= j < nx)%Z ->
  tensor ny ys nx xs a (ys i) (xs j) = at2 a i j.
Proof.
  intros Gy Gx Hi Hj. rewrite tensor_rows.
  rewrite (rsum_ext _ (fun k => at2 a k j * unit_at k i)).
  - apply (sum_unit (fun k => at2 a k j)). exact Hi.
  - intros k Hk. rewrite cardinal_at by auto. f_equal.
    rewrite (rsum_ext _ (fun l => at2 a k l * unit_at l j)) by (intros l Hl; rewrite cardinal_at by auto; reflexivity).
    apply (sum_unit (fun l => at2 a k l)). exact Hj.
Qed.
Lemma cardinal_clamp n xs k x : (4 <= n)%Z -> xs 0%Z <= xs (n - 1)%Z -> cardinal n xs k (clampR n xs x) = cardinal n xs k x.
Proof.
  intros Hn H. unfold cardinal. rewrite (proj2 (Z.leb_le 4 n)) by lia. rewrite (clampR_id n xs (clampR n xs x)); auto.
  apply clampR_in. exact H.
Qed.
Lemma tensor_clamp ny ys nx xs a y x : (4 <= ny)%Z -> (4 <= nx)%Z -> grows ny ys -> grows nx xs ->
  tensor ny ys nx xs a y x = tensor ny ys nx xs a (clampR ny ys y) (clampR nx xs x).
Proof.
  intros Hy Hx Gy Gx. pose proof (grid_bounds ny ys 0 Gy ltac:(lia)). pose proof (grid_bounds nx xs 0 Gx ltac:(lia)).
  unfold tensor, rsum2. apply rsum_ext. intros i Hi. apply rsum_ext. intros j Hj. rewrite !cardinal_clamp by (auto; lra). reflexivity.
Qed.
Lemma tensor_linear ny ys nx xs a b d s t y x :
  (forall i j, (0 <= i < ny)%Z -> (0 <= j < nx)%Z -> at2 d i j = s * at2 a i j + t * at2 b i j) ->
  tensor ny ys nx xs d y x = s * tensor ny ys nx xs a y x + t * tensor ny ys nx xs b y x.
Proof.
  intros H. unfold tensor. rewrite <- !rsum2_scal, <- rsum2_add. apply rsum2_ext. intros i j Hi Hj. rewrite H by auto. ring.
Qed.
Lemma tensor_zero ny ys nx xs a y x : (forall i j, (0 <= i < ny)%Z -> (0 <= j < nx)%Z -> at2 a i j = 0) -> tensor ny ys nx xs a y x = 0.
Proof. intros H. unfold tensor. apply rsum2_all_zero. intros i j Hi Hj. rewrite H by auto. ring. Qed.
Lemma cardinal_mirror n xs k x : grows n xs -> (forall i, (0 <= i < n)%Z -> xs (n - 1 - i)%Z = 0 - xs i) -> (0 <= k < n)%Z ->
  cardinal n xs k (- x) = cardinal n xs (n - 1 - k) x.
Proof.
  intros G Sym Hk. destruct (Z.leb_spec 4 n) as [L|L].
  - pose proof (grid_bounds n xs 0 G ltac:(lia)) as B.
    rewrite <- (cardinal_clamp n xs k (- x)), <- (cardinal_clamp n xs (n - 1 - k) x) by (auto; lra).
    assert (E0 : xs (n - 1)%Z = 0 - xs 0%Z) by (rewrite <- Sym by lia; f_equal; lia).
    assert (C : clampR n xs (- x) = - clampR n xs x).
    { unfold clampR, nearest_in, Rmax, Rmin. rewrite E0. repeat destruct Rle_dec; lra. }
    rewrite C. set (z := clampR n xs x). assert (Hz : xs 0%Z <= z <= xs (n - 1)%Z) by (apply clampR_in; lra).
    pose proof (spline_mirror n xs _ _ 0 L Sym (cardinal_spline n xs k L G)) as M.
    replace (- z) with (0 - z) by ring.
    refine (samples_unique n xs _ (fun x => cardinal n xs k (0 - x)) (cardinal n xs (n - 1 - k)) L G M _ z Hz).
    erewrite samples_ext; [apply cardinal_spline; auto|]. intros i Hi. unfold unit_at.
    destruct (Z.eqb_spec (n - 1 - i) k), (Z.eqb_spec i (n - 1 - k)); auto; lia.
  - unfold cardinal. rewrite (proj2 (Z.leb_gt 4 n)) by lia. rewrite Sym by auto.
    destruct (Req_EM_T (- x) (xs k)), (Req_EM_T x (0 - xs k)); auto; exfalso; lra.
Qed.
Lemma tensor_mirror ny ys nx xs a y x : grows ny ys -> grows nx xs ->
  (forall i, (0 <= i < ny)%Z -> ys (ny - 1 - i)%Z = 0 - ys i) -> (forall i, (0 <= i < nx)%Z -> xs (nx - 1 - i)%Z = 0 - xs i) ->
  (forall i j, (0 <= i < ny)%Z -> (0 <= j < nx)%Z -> at2 a (ny - 1 - i) (nx - 1 - j) = at2 a i j) ->
  tensor ny ys nx xs a (- y) (- x) = tensor ny ys nx xs a y x.
Proof.
  intros Gy Gx Sy Sx Sa. unfold tensor, rsum2.
  rewrite <- (rsum_rev (fun i => rsum (fun j => at2 a i j * (cardinal ny ys i y * cardinal nx xs j x)) nx)).
  apply rsum_ext. intros i Hi.
  rewrite <- (rsum_rev (fun j => at2 a (ny - 1 - i) j * (cardinal ny ys (ny - 1 - i) y * cardinal nx xs j x))).
  apply rsum_ext. intros j Hj. rewrite Sa, !cardinal_mirror by auto. reflexivity.
Qed.
Lemma bispline_nak_ok : scipy_bicubic bispline_nak.
Proof. intros ys xs a Hr Hc Gy Gx. split; [apply tensor_bicubic; auto|]. intros y x. apply tensor_clamp; auto. Qed.
