(** Accuracy of the binary64 circle. *)
From Coq Require Import ZArith Reals Bool Lia Lra Psatz.
From Flocq Require Import Core BinarySingleNaN Relative.
From Verif.Base Require Import Py Arr Sums F64.
From Verif.Model Require Import ShapesF.
From Verif.Spec Require Import ShapesSpec ShapesFSpec.
From Verif.Proofs Require Import F64P ShapesFP ShapesFQ.
Local Open Scope R_scope.
Local Notation B := (bpow radix2).
Local Notation u := (B (-53)).

(** ** Rounding errors *)
Lemma u_tiny : 0 < u <= / 1000000.
Proof. split; [apply bpow_gt_0|]. apply Rle_trans with (B (-20)); [apply bpow_le; lia|]. cbn. lra. Qed.
Lemma rnd_err x k : (-1000 <= k)%Z -> Rabs x <= B k -> Rabs (rnd64 x - x) <= B k * u.
Proof.
  intros Hk H. rewrite <- bpow_plus.
  eapply Rle_trans; [apply error_le_half_ulp; auto with typeclass_instances|].
  assert (U : ulp radix2 flt_exp x <= ulp radix2 flt_exp (B k)).
  { apply ulp_le; auto with typeclass_instances. rewrite (Rabs_right (B k)) by (apply Rle_ge, bpow_ge_0). exact H. }
  rewrite ulp_bpow in U. replace (flt_exp (k + 1)) with (k + -53 + 1)%Z in U by (unfold FLT_exp; lia).
  rewrite bpow_plus in U. change (B 1) with 2 in U. lra.
Qed.
Lemma rnd_err_rel x : Rabs (rnd64 x - x) <= u * Rabs x + B (-1075).
Proof.
  destruct (Rle_or_lt (B (-1022)) (Rabs x)) as [L|L].
  - destruct (relative_error_N_FLT_ex radix2 (-1074) 53 ltac:(reflexivity) (fun z => negb (Z.even z)) x L) as (e & E1 & E2).
    rewrite E2. replace (x * (1 + e) - x) with (e * x) by ring. rewrite Rabs_mult.
    assert (E3 : Rabs e <= u).
    { eapply Rle_trans; [exact E1|]. right. replace (- (53) + 1)%Z with (-53 + 1)%Z by lia. rewrite bpow_plus. change (B 1) with 2. lra. }
    pose proof (bpow_ge_0 radix2 (-1075)). pose proof (Rabs_pos x). nra.
  - eapply Rle_trans; [apply error_le_half_ulp; auto with typeclass_instances|].
    assert (U : ulp radix2 flt_exp x <= B (-1074)).
    { apply Rle_trans with (ulp radix2 flt_exp (B (-1022))).
      - apply ulp_le; auto with typeclass_instances. rewrite (Rabs_right (B (-1022))) by (apply Rle_ge, bpow_ge_0). lra.
      - rewrite ulp_bpow. apply bpow_le. unfold FLT_exp. lia. }
    replace (B (-1074)) with (2 * B (-1075)) in U by (change (-1074)%Z with (-1075 + 1)%Z; rewrite bpow_plus; change (B 1) with 2; ring).
    pose proof u_tiny. pose proof (Rabs_pos x). nra.
Qed.

(** ** Distances *)
Definition hyp (x y : R) : R := sqrt (x ^ 2 + y ^ 2).
Lemma sq_sum_nonneg x y : 0 <= x ^ 2 + y ^ 2.
Proof. nra. Qed.
Lemma hyp_nonneg x y : 0 <= hyp x y. Proof. apply sqrt_pos. Qed.
Lemma hyp_sq x y : hyp x y * hyp x y = x ^ 2 + y ^ 2.
Proof. apply sqrt_sqrt, sq_sum_nonneg. Qed.
Lemma hyp_triangle a b c d : hyp (a + c) (b + d) <= hyp a b + hyp c d.
Proof.
  pose proof (hyp_nonneg a b) as H1. pose proof (hyp_nonneg c d) as H2. pose proof (hyp_sq a b) as S1. pose proof (hyp_sq c d) as S2.
  unfold hyp at 1. rewrite <- (sqrt_Rsqr (hyp a b + hyp c d)) by lra. apply sqrt_le_1_alt. unfold Rsqr.
  assert (K : a * c + b * d <= hyp a b * hyp c d).
  { destruct (Rle_or_lt (a * c + b * d) 0) as [|P]; [nra|].
    apply Rsqr_incr_0_var; [|nra]. unfold Rsqr.
    replace (hyp a b * hyp c d * (hyp a b * hyp c d)) with ((a ^ 2 + b ^ 2) * (c ^ 2 + d ^ 2)) by (rewrite <- S1, <- S2; ring).
    pose proof (pow2_ge_0 (a * d - b * c)). nra. }
  nra.
Qed.
Lemma hyp_abs x y : hyp x y <= Rabs x + Rabs y.
Proof.
  unfold hyp. pose proof (Rabs_pos x). pose proof (Rabs_pos y). rewrite <- (sqrt_Rsqr (Rabs x + Rabs y)) by lra.
  apply sqrt_le_1_alt. unfold Rsqr. rewrite <- (pow2_abs x), <- (pow2_abs y). nra.
Qed.
Lemma hyp_lip x y x' y' d : Rabs (x' - x) <= d -> Rabs (y' - y) <= d -> Rabs (hyp x' y' - hyp x y) <= 2 * d.
Proof.
  intros Hx Hy.
  pose proof (hyp_triangle x y (x' - x) (y' - y)) as T1. pose proof (hyp_triangle x' y' (x - x') (y - y')) as T2.
  replace (x + (x' - x)) with x' in T1 by ring. replace (y + (y' - y)) with y' in T1 by ring.
  replace (x' + (x - x')) with x in T2 by ring. replace (y' + (y - y')) with y in T2 by ring.
  pose proof (hyp_abs (x' - x) (y' - y)) as A1. pose proof (hyp_abs (x - x') (y - y')) as A2.
  rewrite (Rabs_minus_sym x x'), (Rabs_minus_sym y y') in A2. apply Rabs_le. lra.
Qed.
(** Perturbation of a square root. *)
Lemma sqrt_near s s' d t : 0 <= s -> 0 <= s' -> 0 <= d <= 1 -> 0 <= t -> Rabs (s' - s) <= d * s + t ^ 2 ->
  Rabs (sqrt s' - sqrt s) <= d * sqrt s + t.
Proof.
  intros Hs Hs' Hd Ht H. apply Rabs_le_inv in H. pose proof (sqrt_pos s) as P. pose proof (sqrt_pos s') as P'.
  pose proof (sqrt_sqrt s Hs) as Q. pose proof (sqrt_sqrt s' Hs') as Q'. apply Rabs_le. split.
  - assert (K : sqrt s * (1 - d) <= sqrt s' + t); [|lra].
    apply Rsqr_incr_0_var; [|lra]. unfold Rsqr.
    assert ((1 - d) * (1 - d) <= 1 - d) by nra. assert (0 <= sqrt s' * t) by (apply Rmult_le_pos; auto).
    assert (sqrt s * sqrt s * ((1 - d) * (1 - d)) <= s * (1 - d)) by (rewrite Q; apply Rmult_le_compat_l; lra). nra.
  - assert (K : sqrt s' <= sqrt s * (1 + d) + t); [|lra].
    assert (0 <= sqrt s * d) by (apply Rmult_le_pos; lra).
    apply Rsqr_incr_0_var; [|lra]. unfold Rsqr.
    assert (0 <= sqrt s * (1 + d) * t) by (apply Rmult_le_pos; lra).
    assert (s * (1 + d) <= sqrt s * sqrt s * ((1 + d) * (1 + d))) by (rewrite Q; apply Rmult_le_compat_l; nra). nra.
Qed.
Lemma dist_err x y w : 1 <= w -> (exists k, (0 <= k <= 40)%Z /\ w = B k) -> Rabs x <= 4 * w -> Rabs y <= 4 * w ->
  Rabs (dist x y - hyp x y) <= 33 * w * u.
Proof.
  intros Hw (k & Hk & Ew) Hx Hy. pose proof u_tiny as U. set (e := B (-1075)).
  assert (He : 0 <= e) by apply bpow_ge_0.
  set (t := B (-500)). assert (Ht : 0 <= t) by apply bpow_ge_0.
  assert (Et : 8 * e <= t ^ 2).
  { unfold t, e. change 8 with (B 3). replace (B (-500) ^ 2) with (B (-1000)) by (change (-1000)%Z with (-500 + -500)%Z; rewrite bpow_plus; ring).
    rewrite <- bpow_plus. apply bpow_le. lia. }
  assert (Htu : t <= u / 4).
  { unfold t. apply Rle_trans with (B (-55)); [apply bpow_le; lia|]. change (-55)%Z with (-53 + -2)%Z. rewrite bpow_plus.
    change (B (-2)) with (/ 4). lra. }
  unfold dist. set (s := x ^ 2 + y ^ 2). set (s' := rnd64 (rnd64 (x * x) + rnd64 (y * y))).
  pose proof (rnd_err_rel (x * x)) as E1. pose proof (rnd_err_rel (y * y)) as E2.
  rewrite (Rabs_right (x * x)) in E1 by nra. rewrite (Rabs_right (y * y)) in E2 by nra. fold e in E1, E2.
  pose proof (rnd_err_rel (rnd64 (x * x) + rnd64 (y * y))) as E3. fold e s' in E3.
  assert (N1 : 0 <= rnd64 (x * x)) by (apply rnd_nonneg; nra). assert (N2 : 0 <= rnd64 (y * y)) by (apply rnd_nonneg; nra).
  rewrite (Rabs_right (rnd64 (x * x) + _)) in E3 by lra.
  assert (S0 : 0 <= s) by apply sq_sum_nonneg. assert (S1 : 0 <= s') by (apply rnd_nonneg; lra).
  apply Rabs_le_inv in E1, E2, E3.
  assert (SS : Rabs (s' - s) <= 3 * u * s + t ^ 2).
  { set (a := rnd64 (x * x) + rnd64 (y * y)) in *.
    assert (A : s - (u * s + 2 * e) <= a <= s + (u * s + 2 * e)) by (unfold a, s; cbn [pow]; lra).
    assert (UA : u * a <= u * (2 * s + 2 * e)) by (apply Rmult_le_compat_l; nra).
    assert (UA2 : u * a <= u * s + u * (u * s) + 2 * u * e) by nra.
    assert (0 <= u * s) by (apply Rmult_le_pos; lra). assert (u * (u * s) <= u * s) by (rewrite <- (Rmult_1_l (u * s)) at 2; apply Rmult_le_compat_r; lra).
    assert (u * e <= e) by (rewrite <- (Rmult_1_l e) at 2; apply Rmult_le_compat_r; lra). apply Rabs_le. lra. }
  pose proof (sqrt_near s s' (3 * u) t S0 S1 ltac:(lra) Ht SS) as SQ. fold (hyp x y) in SQ. 
  assert (H6 : hyp x y <= 6 * w).
  { unfold hyp. rewrite <- (sqrt_Rsqr (6 * w)) by lra. apply sqrt_le_1_alt. unfold Rsqr.
    rewrite <- (pow2_abs x), <- (pow2_abs y). pose proof (pow_incr (Rabs x) (4 * w) 2 (conj (Rabs_pos x) Hx)).
    pose proof (pow_incr (Rabs y) (4 * w) 2 (conj (Rabs_pos y) Hy)). nra. }
  change (sqrt s) with (hyp x y) in SQ. pose proof (hyp_nonneg x y) as H0.
  assert (D1 : 3 * u * hyp x y + t <= 18 * u * w + u / 4) by nra.
  apply Rabs_le_inv in SQ.
  assert (B8 : Rabs (sqrt s') <= B (k + 3)).
  { rewrite bpow_plus, <- Ew. change (B 3) with 8. rewrite Rabs_right by (apply Rle_ge, sqrt_pos). nra. }
  pose proof (rnd_err (sqrt s') (k + 3) ltac:(lia) B8) as E4. rewrite bpow_plus, <- Ew in E4. change (B 3) with 8 in E4.
  apply Rabs_le_inv in E4. apply Rabs_le. nra.
Qed.

(** ** Coordinates *)
Lemma up_err ns q : (0 <= q < ns)%Z -> (ns <= 2 ^ 26)%Z -> Rabs (up ns q - sub ns q) <= 2 * u /\ Rabs (sub ns q) <= / 2.
Proof.
  intros Hq Hn. pose proof u_tiny as U. assert (Pn : 1 <= IZR ns) by (apply IZR_le; lia).
  assert (Hs : Rabs (sub ns q) <= / 2).
  { unfold sub. apply Rabs_le. assert (0 <= IZR q <= IZR ns - 1) by (rewrite <- minus_IZR; split; apply IZR_le; lia).
    split; apply Rmult_le_reg_r with (2 * IZR ns); try lra; field_simplify; lra. }
  split; auto. unfold up.
  assert (I0 : B (-1022) <= Rabs (1 / IZR ns)).
  { assert (0 < / IZR ns) by (apply Rinv_0_lt_compat; lra). rewrite Rabs_right by (apply Rle_ge; unfold Rdiv; lra).
    apply Rle_trans with (B (-26)); [apply bpow_le; lia|]. change (-26)%Z with (- (26))%Z. rewrite bpow_opp. unfold Rdiv. rewrite Rmult_1_l.
    apply Rinv_le_contravar; [lra|]. rewrite <- (IZR_Zpower radix2) by lia. apply IZR_le. exact Hn. }
  destruct (relative_error_N_FLT_ex radix2 (-1074) 53 ltac:(reflexivity) (fun z => negb (Z.even z)) (1 / IZR ns) I0) as (e & E1 & E2).
  assert (E3 : Rabs e <= u).
  { eapply Rle_trans; [exact E1|]. right. replace (- (53) + 1)%Z with (-53 + 1)%Z by lia. rewrite bpow_plus. change (B 1) with 2. lra. }
  rewrite E2. replace (IZR (2 * q + 1 - ns) / 2 * (1 / IZR ns * (1 + e))) with (sub ns q * (1 + e))
    by (unfold sub; rewrite minus_IZR, plus_IZR, mult_IZR; field; lra).
  assert (K : Rabs (sub ns q * (1 + e) - sub ns q) <= u).
  { replace (sub ns q * (1 + e) - sub ns q) with (sub ns q * e) by ring. rewrite Rabs_mult.
    pose proof (Rabs_pos (sub ns q)). pose proof (Rabs_pos e). nra. }
  assert (K1 : Rabs (sub ns q * (1 + e)) <= B 0).
  { apply Rabs_le_inv in K, Hs. apply Rabs_le. cbn. lra. }
  pose proof (rnd_err _ 0 ltac:(lia) K1) as RR. change (B 0) with 1 in RR. rewrite Rmult_1_l in RR.
  apply Rabs_le_inv in RR, K. apply Rabs_le. lra.
Qed.
Lemma px_bound n off i w k : w = B k -> (0 <= k <= 40)%Z -> (0 <= i < n)%Z -> IZR n <= w -> Rabs off <= w -> Rabs (px n off i) <= 2 * w.
Proof.
  intros Ew Hk Hi Hn Ho. unfold px.
  assert (D : (- n <= i - n / 2 <= n)%Z) by (pose proof (Z.div_pos n 2 ltac:(lia) ltac:(lia)); pose proof (Z.div_le_upper_bound n 2 n ltac:(lia) ltac:(lia)); lia).
  destruct D as [D1 D2]. apply IZR_le in D1, D2. rewrite opp_IZR in D1. apply Rabs_le_inv in Ho. apply Rabs_le. lra.
Qed.
Lemma col_err n off i w k : w = B k -> (0 <= k <= 40)%Z -> (0 <= i < n)%Z -> IZR n <= w -> Rabs off <= w ->
  Rabs (col n off i - px n off i) <= 2 * w * u.
Proof.
  intros Ew Hk Hi Hn Ho. pose proof (px_bound n off i w k Ew Hk Hi Hn Ho) as P.
  replace (2 * w) with (B (k + 1)) in * by (rewrite bpow_plus, <- Ew; change (B 1) with 2; ring).
  exact (rnd_err (px n off i) (k + 1) ltac:(lia) P).
Qed.
Section Pixel.
Variables (w : R) (k : Z) (ns : Z) (x y x' y' : R).
Hypothesis (Ew : w = B k) (Hk : (0 <= k <= 40)%Z) (Hn : (1 <= ns <= 2 ^ 26)%Z).
Hypothesis (Hx : Rabs x <= 2 * w) (Hy : Rabs y <= 2 * w) (Ex : Rabs (x' - x) <= 2 * w * u) (Ey : Rabs (y' - y) <= 2 * w * u).
Lemma w_ge_1 : 1 <= w.
Proof. rewrite Ew. change 1 with (B 0). apply bpow_le. lia. Qed.
Lemma sub_coord z z' q : Rabs z <= 2 * w -> Rabs (z' - z) <= 2 * w * u -> (0 <= q < ns)%Z ->
  Rabs (rnd64 (up ns q + z') - (z + sub ns q)) <= 8 * w * u /\ Rabs (rnd64 (up ns q + z')) <= 4 * w.
Proof.
  intros Hz Ez Hq. pose proof u_tiny as U. pose proof w_ge_1 as W. destruct (up_err ns q Hq ltac:(lia)) as [E1 E2].
  apply Rabs_le_inv in E1, E2, Hz, Ez.
  assert (A : Rabs (up ns q + z') <= B (k + 2)).
  { rewrite bpow_plus, <- Ew. change (B 2) with 4. apply Rabs_le. nra. }
  pose proof (rnd_err _ (k + 2) ltac:(lia) A) as R. pose proof (rnd_bpow_le _ (k + 2) ltac:(lia) A) as R2.
  rewrite bpow_plus, <- Ew in R, R2. change (B 2) with 4 in R, R2. split; [|lra].
  apply Rabs_le_inv in R. apply Rabs_le. nra.
Qed.
(** A computed subpixel distance is within 2^(k-47) of the exact one. *)
Lemma sub_dist p q : (0 <= p < ns)%Z -> (0 <= q < ns)%Z ->
  Rabs (dist (rnd64 (up ns q + x')) (rnd64 (up ns p + y')) - hyp (x + sub ns q) (y + sub ns p)) <= 64 * w * u.
Proof.
  intros Hp Hq. pose proof u_tiny as U. pose proof w_ge_1 as W.
  destruct (sub_coord x x' q Hx Ex Hq) as [A1 A2]. destruct (sub_coord y y' p Hy Ey Hp) as [B1 B2].
  pose proof (dist_err _ _ w W (ex_intro _ k (conj Hk Ew)) A2 B2) as D.
  pose proof (hyp_lip _ _ _ _ _ A1 B1) as L. apply Rabs_le_inv in D, L. apply Rabs_le. nra.
Qed.
Lemma pix_dist : Rabs (dist x' y' - hyp x y) <= 64 * w * u.
Proof.
  pose proof u_tiny as U. pose proof w_ge_1 as W.
  assert (A2 : Rabs x' <= 4 * w) by (apply Rabs_le_inv in Hx, Ex; apply Rabs_le; nra).
  assert (B2 : Rabs y' <= 4 * w) by (apply Rabs_le_inv in Hy, Ey; apply Rabs_le; nra).
  pose proof (dist_err _ _ w W (ex_intro _ k (conj Hk Ew)) A2 B2) as D.
  pose proof (hyp_lip _ _ _ _ _ Ex Ey) as L. apply Rabs_le_inv in D, L. apply Rabs_le. nra.
Qed.
Lemma tol_small : 64 * w * u <= / 100.
Proof.
  rewrite Ew. change 64 with (B 6). rewrite <- !bpow_plus. apply Rle_trans with (B (-7)); [apply bpow_le; lia|]. cbn. lra.
Qed.
(** A subpixel is at most sqrt(1/2) away from the centre of its pixel. *)
Lemma sub_near p q : (0 <= p < ns)%Z -> (0 <= q < ns)%Z -> Rabs (hyp (x + sub ns q) (y + sub ns p) - hyp x y) <= 71 / 100.
Proof.
  intros Hp Hq. destruct (up_err ns q Hq ltac:(lia)) as [_ E1]. destruct (up_err ns p Hp ltac:(lia)) as [_ E2].
  assert (M : hyp (sub ns q) (sub ns p) <= 71 / 100).
  { unfold hyp. rewrite <- (sqrt_Rsqr (71 / 100)) by lra. apply sqrt_le_1_alt. unfold Rsqr.
    rewrite <- (pow2_abs (sub ns q)), <- (pow2_abs (sub ns p)). pose proof (Rabs_pos (sub ns q)). pose proof (Rabs_pos (sub ns p)). nra. }
  pose proof (hyp_triangle x y (sub ns q) (sub ns p)) as T1.
  pose proof (hyp_triangle (x + sub ns q) (y + sub ns p) (- sub ns q) (- sub ns p)) as T2.
  replace (x + sub ns q + - sub ns q) with x in T2 by ring. replace (y + sub ns p + - sub ns p) with y in T2 by ring.
  assert (N : hyp (- sub ns q) (- sub ns p) = hyp (sub ns q) (sub ns p)) by (unfold hyp; f_equal; ring).
  rewrite N in T2. apply Rabs_le. lra.
Qed.

Variables (r h : R).
Hypothesis (Hr : 0 < r <= w) (Hh : 7 / 5 <= h <= 3 / 2).
Definition insideb (p q : Z) : bool := Rle_bool (hyp (x + sub ns q) (y + sub ns p)) r.
Definition rimb (p q : Z) : bool := Rle_bool (Rabs (hyp (x + sub ns q) (y + sub ns p) - r)) (64 * w * u).
Definition frac (f : Z -> Z -> bool) : R := rsum2 (fun p q => if f p q then 1 else 0) ns ns / (IZR ns * IZR ns).
Lemma ns_pos : 0 < IZR ns * IZR ns.
Proof. assert (0 < IZR ns) by (apply IZR_lt; lia). nra. Qed.
Lemma covers_rim p q : (0 <= p < ns)%Z -> (0 <= q < ns)%Z -> rimb p q = false -> covers r ns x' y' p q = insideb p q.
Proof.
  intros Hp Hq N. pose proof (sub_dist p q Hp Hq) as D. apply Rabs_le_inv in D. unfold rimb in N. unfold covers, insideb.
  destruct (Rle_bool_spec (Rabs (hyp (x + sub ns q) (y + sub ns p) - r)) (64 * w * u)) as [|L]; [discriminate|].
  set (d := dist _ _) in *. set (e := hyp (x + sub ns q) (y + sub ns p)) in *.
  destruct (Rle_bool_spec d r), (Rle_bool_spec e r); auto; exfalso.
  - rewrite Rabs_right in L by lra. lra.
  - rewrite Rabs_left1 in L by lra. lra.
Qed.
Lemma frac_diff (f g c : Z -> Z -> bool) : (forall p q, (0 <= p < ns)%Z -> (0 <= q < ns)%Z -> c p q = false -> f p q = g p q) ->
  Rabs (frac f - frac g) <= frac c.
Proof.
  intros H. pose proof ns_pos as P. unfold frac.
  replace (rsum2 (fun p q => if f p q then 1 else 0) ns ns / (IZR ns * IZR ns) - rsum2 (fun p q => if g p q then 1 else 0) ns ns / (IZR ns * IZR ns))
    with ((rsum2 (fun p q => if f p q then 1 else 0) ns ns - rsum2 (fun p q => if g p q then 1 else 0) ns ns) / (IZR ns * IZR ns)) by (unfold Rdiv; ring).
  rewrite <- rsum2_sub. unfold Rdiv. rewrite Rabs_mult, (Rabs_right (/ _)) by (apply Rle_ge, Rlt_le, Rinv_0_lt_compat, P).
  apply Rmult_le_compat_r; [apply Rlt_le, Rinv_0_lt_compat, P|].
  apply Rabs_le. split.
  - rewrite <- rsum2_opp. apply rsum2_le. intros p q Hp Hq. destruct (c p q) eqn:C; [destruct (f p q), (g p q); lra|rewrite H by auto; destruct (g p q); lra].
  - apply rsum2_le. intros p q Hp Hq. destruct (c p q) eqn:C; [destruct (f p q), (g p q); lra|rewrite H by auto; destruct (g p q); lra].
Qed.
Lemma pix_rounded : exists v, pixv r h ns x' y' = rnd64 v /\ 0 <= v <= 1 /\ Rabs (v - frac insideb) <= frac rimb.
Proof.
  pose proof ns_pos as P. pose proof u_tiny as U. pose proof w_ge_1 as W. pose proof tol_small as T. pose proof pix_dist as D. apply Rabs_le_inv in D.
  assert (RA : r + h - / 100 <= rnd64 (r + h) /\ rnd64 (r - h) <= r - h + / 100).
  { assert (A1 : Rabs (r + h) <= B (k + 2)) by (rewrite bpow_plus, <- Ew; change (B 2) with 4; apply Rabs_le; lra).
    assert (A2 : Rabs (r - h) <= B (k + 2)) by (rewrite bpow_plus, <- Ew; change (B 2) with 4; apply Rabs_le; lra).
    pose proof (rnd_err _ (k + 2) ltac:(lia) A1) as E1. pose proof (rnd_err _ (k + 2) ltac:(lia) A2) as E2.
    rewrite bpow_plus, <- Ew in E1, E2. change (B 2) with 4 in E1, E2. apply Rabs_le_inv in E1, E2. nra. }
  assert (Z0 : frac (fun _ _ => false) = 0) by (unfold frac; rewrite rsum2_zero; unfold Rdiv; ring).
  assert (Z1 : frac (fun _ _ => true) = 1).
  { unfold frac. rewrite rsum2_const by lia. field. pose proof (IZR_lt 0 ns ltac:(lia)). lra. }
  assert (G : forall c : bool, (forall p q, (0 <= p < ns)%Z -> (0 <= q < ns)%Z -> insideb p q = c) -> Rabs (frac (fun _ _ => c) - frac insideb) <= frac rimb).
  { intros c H. apply frac_diff. intros p q Hp Hq _. symmetry. auto. }
  unfold pixv.
  destruct (Rlt_bool_spec (rnd64 (r + h)) (dist x' y')) as [L|L].
  - exists 0. rewrite rnd_0. split; auto. split; [lra|]. rewrite <- Z0 at 1. apply (G false). intros p q Hp Hq.
    pose proof (sub_near p q Hp Hq) as S. apply Rabs_le_inv in S. unfold insideb. apply Rle_bool_false. lra.
  - destruct (Rlt_bool_spec (dist x' y') (rnd64 (r - h))) as [L2|L2].
    + exists 1. rewrite (rnd_IZR 1) by lia. split; auto. split; [lra|]. rewrite <- Z1 at 1. apply (G true). intros p q Hp Hq.
      pose proof (sub_near p q Hp Hq) as S. apply Rabs_le_inv in S. unfold insideb. apply Rle_bool_true. lra.
    + exists (frac (covers r ns x' y')). split; [|split].
      * f_equal. unfold frac. rewrite zcount_R, mult_IZR. reflexivity.
      * unfold frac. rewrite <- zcount_R. pose proof (zcount_range (covers r ns x' y') ns ltac:(lia)) as [C1 C2].
        apply IZR_le in C1, C2. rewrite mult_IZR in C2. split.
        -- apply Rmult_le_pos; auto. apply Rlt_le, Rinv_0_lt_compat, P.
        -- apply Rmult_le_reg_r with (IZR ns * IZR ns); auto. unfold Rdiv. rewrite Rmult_assoc, Rinv_l by lra. lra.
      * apply frac_diff. intros. apply covers_rim; auto.
Qed.
Lemma insideb_coverage : coverage (disc r) ns x y (frac insideb).
Proof.
  exists (fun p q => if insideb p q then 1 else 0). split; [|reflexivity]. intros p q Hp Hq. unfold insideb, disc.
  pose proof (hyp_nonneg (x + sub ns q) (y + sub ns p)) as N. pose proof (hyp_sq (x + sub ns q) (y + sub ns p)) as S.
  split; intros H.
  - rewrite Rle_bool_true; auto. apply Rsqr_incr_0_var; [|lra]. unfold Rsqr. nra.
  - rewrite Rle_bool_false; auto. apply Rnot_le_lt. intros L. apply H. nra.
Qed.
Lemma rimb_coverage : coverage (rim r (64 * w * u)) ns x y (frac rimb).
Proof.
  exists (fun p q => if rimb p q then 1 else 0). split; [|reflexivity]. intros p q Hp Hq. unfold rimb, rim. fold (hyp (x + sub ns q) (y + sub ns p)).
  split; intros H; [rewrite Rle_bool_true; auto|rewrite Rle_bool_false; auto; lra].
Qed.
End Pixel.

Lemma band_range nx xo w k : w = B k -> (0 <= k <= 40)%Z -> (1 < nx)%Z -> IZR nx <= w -> Rabs xo <= w -> 7 / 5 <= band nx xo <= 3 / 2.
Proof.
  intros Ew Hk Hx Hw Ho. pose proof u_tiny as U.
  assert (T : 2 * w * u <= / 1000).
  { rewrite Ew. change 2 with (B 1). rewrite <- !bpow_plus. apply Rle_trans with (B (-10)); [apply bpow_le; lia|]. cbn. lra. }
  pose proof (col_err nx xo 0 w k Ew Hk ltac:(lia) Hw Ho) as E0. pose proof (col_err nx xo 1 w k Ew Hk ltac:(lia) Hw Ho) as E1.
  assert (P : px nx xo 1 - px nx xo 0 = 1) by (unfold px; rewrite !minus_IZR; ring).
  apply Rabs_le_inv in E0, E1. unfold band. set (d := col nx xo 1 - col nx xo 0) in *.
  assert (D : 998 / 1000 <= d <= 1002 / 1000) by (unfold d; lra).
  assert (Ad : Rabs d <= B 1) by (apply Rabs_le; change (B 1) with 2; lra).
  pose proof (rnd_err d 1 ltac:(lia) Ad) as Rd. change (B 1) with 2 in Rd. apply Rabs_le_inv in Rd.
  assert (S2 : 1414 / 1000 <= sqrt 2 <= 1415 / 1000).
  { split.
    - rewrite <- (sqrt_Rsqr (1414 / 1000)) by lra. apply sqrt_le_1_alt. unfold Rsqr. lra.
    - rewrite <- (sqrt_Rsqr (1415 / 1000)) by lra. apply sqrt_le_1_alt. unfold Rsqr. lra. }
  assert (As : Rabs (sqrt 2) <= B 1) by (apply Rabs_le; change (B 1) with 2; lra).
  pose proof (rnd_err _ 1 ltac:(lia) As) as Rs. change (B 1) with 2 in Rs. apply Rabs_le_inv in Rs.
  set (a := rnd64 (sqrt 2)) in *. set (b := rnd64 d) in *.
  assert (A1 : 1413 / 1000 <= a <= 1416 / 1000) by lra. assert (B1 : 997 / 1000 <= b <= 1003 / 1000) by lra.
  assert (AB : 1408 / 1000 <= a * b <= 1421 / 1000) by nra.
  assert (Ap : Rabs (a * b) <= B 1) by (apply Rabs_le; change (B 1) with 2; lra).
  pose proof (rnd_err _ 1 ltac:(lia) Ap) as Rp. change (B 1) with 2 in Rp. apply Rabs_le_inv in Rp. lra.
Qed.

Lemma circle_f_accurate k nx ny r xo yo ns isDark : circle_args_upto k nx ny r xo yo ns ->
  exists m, circle_f nx ny r xo yo ns isDark = Ok m /\ nr m = ny /\ nc m = nx /\
  forall i j, (0 <= i < ny)%Z -> (0 <= j < nx)%Z -> exists v t,
    coverage (disc (fval r)) ns (px nx (fval xo) j) (px ny (fval yo) i) v /\
    coverage (rim (fval r) (B (k - 47))) ns (px nx (fval xo) j) (px ny (fval yo) i) t /\
    Rabs (fval (at2 m i j) - (if isDark then 1 - v else v)) <= t + B (-52) /\
    (t = 0 -> fval (at2 m i j) = if isDark then rnd64 (1 - rnd64 v) else rnd64 v).
Proof.
  intros (Hk & Hx & Hy & Hn & [Fr Wr] & [Fx Wx] & [Fy Wy] & Pr).
  assert (P2 : (2 ^ k <= 2 ^ 50)%Z) by (apply Z.pow_le_mono_r; lia).
  assert (P3 : B k <= B 400) by (apply bpow_le; lia).
  assert (HA : circle_args nx ny r xo yo ns).
  { repeat split; try lia; auto; lra. }
  destruct (circle_f_at nx ny r xo yo ns isDark HA) as (m & E & Er & Ec & P).
  exists m. split; auto. split; auto. split; auto. intros i j Hi Hj. rewrite P by auto. cbv zeta.
  set (w := B k). assert (Ew : w = B k) by reflexivity.
  assert (Nx : IZR nx <= w) by (unfold w; rewrite <- (IZR_Zpower radix2) by lia; apply IZR_le; exact (proj2 Hx)).
  assert (Ny : IZR ny <= w) by (unfold w; rewrite <- (IZR_Zpower radix2) by lia; apply IZR_le; exact (proj2 Hy)).
  pose proof (px_bound nx (fval xo) j w k Ew Hk Hj Nx Wx) as Bx. pose proof (px_bound ny (fval yo) i w k Ew Hk Hi Ny Wy) as By.
  pose proof (col_err nx (fval xo) j w k Ew Hk Hj Nx Wx) as Ex. pose proof (col_err ny (fval yo) i w k Ew Hk Hi Ny Wy) as Ey.
  pose proof (band_range nx (fval xo) w k Ew Hk ltac:(lia) Nx Wx) as Hb.
  rewrite Rabs_right in Wr by lra.
  destruct (pix_rounded w k ns _ _ _ _ Ew Hk Hn Bx By Ex Ey (fval r) _ (conj Pr Wr) Hb) as (v' & V1 & V2 & V3).
  destruct (pix_val (fval r) (band nx (fval xo)) ns (col nx (fval xo) j) (col ny (fval yo) i) Hn) as (V & F & I).
  rewrite <- V in I. rewrite V1 in V.
  set (fi := frac ns (insideb ns (px nx (fval xo) j) (px ny (fval yo) i) (fval r))) in *.
  set (ft := frac ns (rimb w ns (px nx (fval xo) j) (px ny (fval yo) i) (fval r))) in *.
  exists fi, ft. split; [apply (insideb_coverage w); split; [exact Pr|exact Wr]|].
  assert (Tk : B (k - 47) = 64 * w * u).
  { unfold w. change 64 with (B 6). rewrite <- !bpow_plus. f_equal. lia. }
  split; [rewrite Tk; apply rimb_coverage|].
  assert (E52 : B (-52) = 2 * u) by (change (-52)%Z with (-53 + 1)%Z; rewrite bpow_plus; change (B 1) with 2; ring).
  assert (Av : Rabs v' <= B 0) by (rewrite Rabs_right by lra; cbn; lra).
  pose proof (rnd_err v' 0 ltac:(lia) Av) as R1. change (B 0) with 1 in R1. rewrite Rmult_1_l in R1.
  pose proof u_tiny as U. rewrite E52.
  assert (Z : ft = 0 -> v' = fi). { intros Q. rewrite Q in V3. apply Rabs_le_inv in V3. lra. }
  destruct isDark.
  - destruct (dark_val _ F I) as [Vd _]. rewrite V in Vd. rewrite V in I.
    assert (A1 : Rabs (1 - rnd64 v') <= B 0) by (apply Rabs_le; change (B 0) with 1; lra).
    pose proof (rnd_err _ 0 ltac:(lia) A1) as R2. change (B 0) with 1 in R2. rewrite Rmult_1_l in R2.
    rewrite Vd. split; [|intros Q; rewrite (Z Q); reflexivity].
    apply Rabs_le_inv in R1, R2, V3. apply Rabs_le. lra.
  - rewrite V. split; [|intros Q; rewrite (Z Q); reflexivity].
    apply Rabs_le_inv in R1, V3. apply Rabs_le. lra.
Qed.
