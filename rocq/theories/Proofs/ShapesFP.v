(** Proofs about the binary64 circle. *)
From Coq Require Import ZArith Reals Bool Lia Lra.
From Flocq Require Import Core BinarySingleNaN.
From Verif.Base Require Import Py Arr Sums F64.
From Verif.Model Require Import ShapesF.
From Verif.Proofs Require Import F64P.
Local Open Scope R_scope.
Local Notation B := (bpow radix2).

(** ** Grids are exact *)
Lemma half_within z : (Z.abs z <= 2 ^ 51)%Z -> fval (fdiv (fofZ z) (fofZ 2)) = IZR z / 2 /\ within 51 (fdiv (fofZ z) (fofZ 2)).
Proof.
  intros H. destruct (fdiv_int_within 51 (fofZ z) 2 ltac:(lia) (fofZ_within 51 z ltac:(lia) H) ltac:(lia)) as [V W].
  destruct (fofZ_spec z ltac:(lia)) as [Vz _]. rewrite Vz, rnd_half in V by lia. auto.
Qed.
Lemma linspace_unit a b A n i : within 51 a -> within 51 b -> fval a = IZR A / 2 -> fval b = IZR A / 2 + IZR (n - 1) ->
  (Z.abs A <= 2 ^ 51)%Z -> (0 <= i < n)%Z -> (n <= 2 ^ 50)%Z ->
  fval (linspace_f a b n i) = IZR A / 2 + IZR i /\ within 54 (linspace_f a b n i).
Proof.
  intros Wa Wb Va Vb HA Hi Hn. unfold linspace_f.
  destruct (fsub_within 51 b a ltac:(lia) Wb Wa) as [Vd Wd].
  replace (fval b - fval a) with (IZR (n - 1)) in Vd by (rewrite Va, Vb; ring). rewrite rnd_IZR in Vd by lia.
  destruct (Z.eqb_spec n 1) as [E|E].
  - assert (i = 0)%Z as -> by lia. subst n. cbn [Z.sub Z.add Z.opp Z.pos_sub] in Vd.
    destruct (fofZ_spec 0 ltac:(lia)) as [V0 F0].
    destruct (fmul_within 0 52 (fofZ 0) (fsub b a) ltac:(lia) (fofZ_within 0 0 ltac:(lia) ltac:(lia)) Wd) as [Vm Wm].
    rewrite V0, Rmult_0_l, rnd_0 in Vm.
    destruct (fadd_within 52 _ a ltac:(lia) Wm (within_le 51 52 a ltac:(lia) Wa)) as [V W].
    rewrite Vm, Rplus_0_l in V. split.
    + rewrite V, (rnd_id _ (fval_format a)), Va. ring.
    + apply (within_le 53); [lia|exact W].
  - destruct (Z.eqb_spec i (n - 1)) as [E2|E2].
    + subst i. split; [exact Vb|]. apply (within_le 51); [lia|exact Wb].
    + cbv zeta.
      destruct (fdiv_int_within 52 (fsub b a) (n - 1) ltac:(lia) Wd ltac:(lia)) as [Vs Ws].
      assert (Pn : IZR (n - 1) <> 0) by (apply not_0_IZR; lia).
      rewrite Vd in Vs. replace (IZR (n - 1) / IZR (n - 1)) with 1 in Vs by (field; auto).
      rewrite (rnd_IZR 1) in Vs by lia.
      rewrite feq_val; [|apply Ws|reflexivity]. rewrite Vs. change (fval fzero) with 0.
      rewrite Req_bool_false by lra.
      destruct (fofZ_spec i ltac:(lia)) as [Vi Fi].
      assert (W1 : within 0 (fdiv (fsub b a) (fofZ (n - 1)))) by (split; [apply Ws|rewrite Vs, Rabs_R1; cbn; lra]).
      destruct (fmul_within 51 0 (fofZ i) _ ltac:(lia) (fofZ_within 51 i ltac:(lia) ltac:(lia)) W1) as [Vm Wm].
      rewrite Vi, Vs, Rmult_1_r, rnd_IZR in Vm by lia.
      destruct (fadd_within 51 _ a ltac:(lia) Wm Wa) as [V W]. rewrite Vm, Va in V.
      replace (IZR i + IZR A / 2) with (IZR (2 * i + A) / 2) in V by (rewrite plus_IZR, mult_IZR; field).
      rewrite rnd_half in V by lia. split.
      * rewrite V, plus_IZR, mult_IZR. field.
      * apply (within_le 52); [lia|exact W].
Qed.

(** Offsets, radii and coordinates up to 2^400 keep everything away from overflow. *)
Lemma axis_val n off i : (0 <= i < n)%Z -> (n <= 2 ^ 50)%Z -> within 400 off ->
  fval (axis_f n off i) = rnd64 (IZR (i - n / 2) - fval off) /\ within 401 (axis_f n off i).
Proof.
  intros Hi Hn Wo. unfold axis_f. destruct (Z.even n) eqn:E.
  - assert (En : (n = 2 * (n / 2))%Z) by (apply Z.even_spec in E; destruct E as [k ->]; rewrite Z.mul_comm, Z.div_mul by lia; lia).
    destruct (half_within (- n) ltac:(lia)) as [Va Wa]. destruct (half_within n ltac:(lia)) as [Vb Wb].
    assert (W50 : within 50 (fdiv (fofZ n) (fofZ 2))).
    { split; [apply Wb|]. rewrite Vb, Rabs_right by (apply Rle_ge; apply Rmult_le_pos; [apply IZR_le; lia|lra]).
      apply Rle_trans with (IZR n); [pose proof (IZR_le 0 n ltac:(lia)); lra|].
      rewrite <- (IZR_Zpower radix2) by lia. apply IZR_le. exact Hn. }
    destruct (fsub_within 50 _ (fofZ 1) ltac:(lia) W50 (fofZ_within 50 1 ltac:(lia) ltac:(lia))) as [Vc Wc].
    destruct (fofZ_spec 1 ltac:(lia)) as [V1 _]. rewrite Vb, V1 in Vc.
    replace (IZR n / 2 - 1) with (IZR (n - 2) / 2) in Vc by (rewrite minus_IZR; field). rewrite rnd_half in Vc by lia.
    destruct (linspace_unit _ _ (- n) n i Wa Wc Va) as [V W]; auto; try lia.
    { rewrite Vc, !minus_IZR, opp_IZR. field. }
    destruct (fsub_within 400 _ off ltac:(lia) (within_le 54 400 _ ltac:(lia) W) Wo) as [V' W'].
    split; auto. rewrite V', V. f_equal. f_equal. rewrite minus_IZR. rewrite opp_IZR, En at 1. rewrite mult_IZR. field.
  - assert (En : (n - 1 = 2 * (n / 2))%Z).
    { rewrite <- Z.negb_odd in E. apply negb_false_iff, Z.odd_spec in E. destruct E as [k ->].
      replace (2 * k + 1)%Z with (1 + k * 2)%Z by lia. rewrite Z.div_add by lia. change (1 / 2)%Z with 0%Z. lia. }
    destruct (half_within (- (n - 1)) ltac:(lia)) as [Va Wa]. destruct (half_within (n - 1) ltac:(lia)) as [Vb Wb].
    destruct (linspace_unit _ _ (- (n - 1)) n i Wa Wb Va) as [V W]; auto; try lia.
    { rewrite Vb, opp_IZR. field. }
    destruct (fsub_within 400 _ off ltac:(lia) (within_le 54 400 _ ltac:(lia) W) Wo) as [V' W'].
    split; auto. rewrite V', V. f_equal. f_equal. rewrite minus_IZR, opp_IZR, En, mult_IZR. field.
Qed.

Definition up (ns q : Z) : R := rnd64 (IZR (2 * q + 1 - ns) / 2 * rnd64 (1 / IZR ns)).
Lemma xUp_val ns q : (0 <= q < ns)%Z -> (ns <= 2 ^ 50)%Z -> fval (xUp_f ns q) = up ns q /\ within 60 (xUp_f ns q).
Proof.
  intros Hq Hn. unfold xUp_f.
  destruct (half_within (- (ns - 1)) ltac:(lia)) as [Va Wa]. destruct (half_within (ns - 1) ltac:(lia)) as [Vb Wb].
  destruct (linspace_unit _ _ (- (ns - 1)) ns q Wa Wb Va) as [V W]; auto; try lia.
  { rewrite Vb, opp_IZR. field. }
  destruct (fdiv_int_within 0 (fofZ 1) ns ltac:(lia) (fofZ_within 0 1 ltac:(lia) ltac:(lia)) ltac:(lia)) as [Vd Wd].
  destruct (fofZ_spec 1 ltac:(lia)) as [V1 _]. rewrite V1 in Vd.
  destruct (fmul_within 54 0 _ _ ltac:(lia) W Wd) as [V' W']. split; [|apply (within_le 54); [lia|exact W']].
  rewrite V', V, Vd. unfold up. f_equal. f_equal. rewrite opp_IZR, !minus_IZR, plus_IZR, mult_IZR. field.
Qed.

(** ** Distances *)
Definition dist (x y : R) : R := rnd64 (sqrt (rnd64 (rnd64 (x * x) + rnd64 (y * y)))).
Lemma rho_val x y : within 403 x -> within 403 y -> fval (rho_f x y) = dist (fval x) (fval y) /\ within 404 (rho_f x y).
Proof.
  intros Wx Wy. unfold rho_f.
  destruct (fmul_within 403 403 x x ltac:(lia) Wx Wx) as [Vx Sx]. destruct (fmul_within 403 403 y y ltac:(lia) Wy Wy) as [Vy Sy].
  destruct (fadd_within 806 _ _ ltac:(lia) Sx Sy) as [Vs Ss].
  assert (P : 0 <= fval (fadd (fmul x x) (fmul y y))).
  { rewrite Vs, Vx, Vy. apply rnd_nonneg. apply Rplus_le_le_0_compat; apply rnd_nonneg; nra. }
  destruct (fsqrt_within 404 _ ltac:(lia) (within_le (806 + 1) (2 * 404) _ ltac:(lia) Ss) P) as [V W].
  split; auto. rewrite V, Vs, Vx, Vy. reflexivity.
Qed.
Lemma dist_nonneg x y : 0 <= dist x y.
Proof. apply rnd_nonneg, sqrt_pos. Qed.
Lemma dist_sym x y : dist x y = dist y x.
Proof. unfold dist. rewrite Rplus_comm. reflexivity. Qed.
Lemma dist_opp x y : dist (- x) y = dist x y.
Proof. unfold dist. replace (- x * - x) with (x * x) by ring. reflexivity. Qed.

(** ** One pixel *)
Definition zcount (f : Z -> Z -> bool) (n : Z) : Z :=
  gsum Z 0%Z Z.add (fun p => gsum Z 0%Z Z.add (fun q => if f p q then 1%Z else 0%Z) n) n.
Lemma zcount_ext f g n : (forall p q, (0 <= p < n)%Z -> (0 <= q < n)%Z -> f p q = g p q) -> zcount f n = zcount g n.
Proof. intros H. apply gsum_ext. intros p Hp. apply gsum_ext. intros q Hq. rewrite H by auto. reflexivity. Qed.
Lemma zcount_R f n : IZR (zcount f n) = rsum2 (fun p q => if f p q then 1 else 0) n n.
Proof.
  unfold zcount, rsum2, rsum, gsum.
  assert (K : forall (g : Z -> Z) k, IZR (gnsum Z 0%Z Z.add g k) = gnsum R 0 Rplus (fun i => IZR (g i)) k).
  { intros g k. induction k as [|k IH]; cbn; auto. rewrite plus_IZR, IH. reflexivity. }
  rewrite K. apply (rsum_ext _ _ n). intros p _. rewrite K. apply (rsum_ext _ _ n). intros q _. destruct (f p q); reflexivity.
Qed.
Lemma zcount_range f n : (0 <= n)%Z -> (0 <= zcount f n <= n * n)%Z.
Proof.
  intros Hn. split; apply le_IZR; rewrite zcount_R.
  - apply rsum2_nonneg. intros. destruct f; lra.
  - rewrite mult_IZR, <- (Rmult_1_r (_ * _)), <- rsum2_const by auto. apply rsum2_le. intros. destruct f; lra.
Qed.
Lemma zcount_le f g n : (forall p q, (0 <= p < n)%Z -> (0 <= q < n)%Z -> f p q = true -> g p q = true) -> (zcount f n <= zcount g n)%Z.
Proof.
  intros H. apply le_IZR. rewrite !zcount_R. apply rsum2_le. intros p q Hp Hq. destruct (f p q) eqn:E.
  - rewrite H by auto. lra.
  - destruct g; lra.
Qed.
Lemma zcount_revq f n : zcount (fun p q => f p (n - 1 - q)%Z) n = zcount f n.
Proof.
  apply eq_IZR. rewrite !zcount_R. apply rsum_ext. intros p _.
  exact (rsum_rev (fun q => if f p q then 1 else 0) n).
Qed.
Lemma zcount_swap f n : zcount (fun p q => f q p) n = zcount f n.
Proof. apply eq_IZR. rewrite !zcount_R. symmetry. apply rsum2_swap. Qed.

(** The pixel whose computed coordinates are x and y. *)
Definition covers (r : R) (ns : Z) (x y : R) (p q : Z) : bool := Rle_bool (dist (rnd64 (up ns q + x)) (rnd64 (up ns p + y))) r.
Definition pix (r : R) (h : R) (ns : Z) (x y : R) : f64 :=
  if Rlt_bool (rnd64 (r + h)) (dist x y) then fzero
  else if Rlt_bool (dist x y) (rnd64 (r - h)) then fofZ 1
  else fdiv (fofZ (zcount (covers r ns x y) ns)) (fofZ (ns * ns)).

Lemma count_val r ns x y : within 400 r -> (1 <= ns <= 2 ^ 26)%Z -> within 401 x -> within 401 y ->
  inside_count_f r ns x y = zcount (covers (fval r) ns (fval x) (fval y)) ns.
Proof.
  intros Wr Hn Wx Wy.
  change (zcount (fun p q => fle (rho_f (fadd (xUp_f ns q) x) (fadd (xUp_f ns p) y)) r) ns = zcount (covers (fval r) ns (fval x) (fval y)) ns).
  apply zcount_ext. intros p q Hp Hq.
  destruct (xUp_val ns p Hp ltac:(lia)) as [Vp Wp]. destruct (xUp_val ns q Hq ltac:(lia)) as [Vq Wq].
  destruct (fadd_within 401 _ x ltac:(lia) (within_le 60 401 _ ltac:(lia) Wq) Wx) as [Vx' Wx'].
  destruct (fadd_within 401 _ y ltac:(lia) (within_le 60 401 _ ltac:(lia) Wp) Wy) as [Vy' Wy'].
  destruct (rho_val _ _ (within_le 402 403 _ ltac:(lia) Wx') (within_le 402 403 _ ltac:(lia) Wy')) as [V W].
  rewrite fle_val; [|apply W|apply Wr]. unfold covers. rewrite V, Vx', Vy', Vp, Vq. reflexivity.
Qed.

(** Width of the band of grey pixels: sqrt 2 times the computed distance of two columns. *)
Definition col (n : Z) (off : R) (j : Z) : R := rnd64 (IZR (j - n / 2) - off).
Definition band (nx : Z) (xo : R) : R := rnd64 (rnd64 (sqrt 2) * rnd64 (col nx xo 1 - col nx xo 0)).

Lemma circle_f_ok nx ny r xo yo ns isDark : (1 < nx <= 2 ^ 50)%Z -> (0 < ny <= 2 ^ 50)%Z -> (1 <= ns <= 2 ^ 26)%Z ->
  within 400 r -> within 400 xo -> within 400 yo -> 0 < fval r ->
  exists m, circle_f nx ny r xo yo ns isDark = Ok m /\ nr m = ny /\ nc m = nx /\
  forall i j, (0 <= i < ny)%Z -> (0 <= j < nx)%Z ->
    at2 m i j = let v := pix (fval r) (band nx (fval xo)) ns (col nx (fval xo) j) (col ny (fval yo) i) in
                if isDark then fsub (fofZ 1) v else v.
Proof.
  intros Hx Hy Hn Wr Wx Wy Pr. unfold circle_f.
  rewrite guard_true by (apply Z.ltb_lt; lia). rewrite guard_true by (apply Z.ltb_lt; lia).
  rewrite guard_true by (apply negb_true_iff; rewrite fle_val by (try reflexivity; apply Wr); apply Rle_bool_false; exact Pr).
  rewrite guard_true by (apply Z.ltb_lt; lia). rewrite guard_true by (apply Z.ltb_lt; lia).
  cbv zeta. eexists. split; [reflexivity|]. split; [reflexivity|]. split; [reflexivity|].
  intros i j Hi Hj. cbn [at2].
  destruct (axis_val nx xo j Hj ltac:(lia) Wx) as [Vj Wj]. destruct (axis_val ny yo i Hi ltac:(lia) Wy) as [Vi Wi].
  destruct (axis_val nx xo 0 ltac:(lia) ltac:(lia) Wx) as [V0 W0]. destruct (axis_val nx xo 1 ltac:(lia) ltac:(lia) Wx) as [V1 W1].
  destruct (fsub_within 401 _ _ ltac:(lia) W1 W0) as [Vd Wd].
  destruct (fofZ_spec 2 ltac:(lia)) as [V2 F2].
  destruct (fsqrt_within 1 (fofZ 2)) as [Vq Wq]; [lia|apply (fofZ_within 2 2); lia|rewrite V2; lra|].
  destruct (fmul_within 1 402 _ _ ltac:(lia) Wq Wd) as [Vh Wh].
  destruct (fadd_within 403 r _ ltac:(lia) (within_le 400 403 _ ltac:(lia) Wr) Wh) as [Va Wa].
  destruct (fsub_within 403 r _ ltac:(lia) (within_le 400 403 _ ltac:(lia) Wr) Wh) as [Vs Ws].
  destruct (rho_val _ _ (within_le 401 403 _ ltac:(lia) Wj) (within_le 401 403 _ ltac:(lia) Wi)) as [Vr Wr'].
  assert (Vab : fval (Babs (rho_f (axis_f nx xo j) (axis_f ny yo i))) = dist (col nx (fval xo) j) (col ny (fval yo) i)).
  { unfold fval at 1. rewrite B2R_Babs. fold (fval (rho_f (axis_f nx xo j) (axis_f ny yo i))). rewrite Vr, Vj, Vi.
    apply Rabs_right, Rle_ge, dist_nonneg. }
  assert (Fab : is_finite (Babs (rho_f (axis_f nx xo j) (axis_f ny yo i))) = true) by (rewrite is_finite_Babs; apply Wr').
  rewrite !flt_val by (auto; first [apply Wa|apply Ws]). rewrite Vab, Va, Vs, Vh, Vq, Vd, V0, V1, V2.
  rewrite count_val by (auto; lia). rewrite Vj, Vi. reflexivity.
Qed.
