(** Proofs about the dark-hole shapes in binary64. *)
From Coq Require Import ZArith Reals Bool Lia Lra Psatz.
From Flocq Require Import Core BinarySingleNaN Mult_error.
From Verif.Base Require Import Py Arr F64.
From Verif.Model Require Import ShapesF DarkHoleF.
From Verif.Spec Require Import ShapesSpec DarkHoleSpec ShapesFSpec DarkHoleFSpec.
From Verif.Proofs Require Import F64P ShapesFP ShapesFQ ShapesFA.
Local Open Scope R_scope.
Local Notation B := (bpow radix2).
Local Notation u := (B (-53)).

(** ** Multiples of a power of two *)
Lemma pow2_pos t : (0 <= t)%Z -> 0 < IZR (2 ^ t).
Proof. intros H. apply IZR_lt. apply Z.pow_pos_nonneg; lia. Qed.
Lemma pow2_bpow t : (0 <= t)%Z -> IZR (2 ^ t) = B t.
Proof. intros H. exact (IZR_Zpower radix2 t H). Qed.
Lemma fmt_grid z t : (0 <= t <= 1000)%Z -> (Z.abs z <= 2 ^ 53)%Z -> fmt64 (IZR z / IZR (2 ^ t)).
Proof.
  intros Ht Hz. rewrite pow2_bpow by lia. unfold Rdiv. rewrite <- bpow_opp.
  destruct (Z.eq_dec z 0) as [->|N]; [rewrite Rmult_0_l; apply generic_format_0|].
  apply (mult_bpow_exact_FLT radix2 (-1074) 53 (IZR z) (- t)); [apply fmt_IZR, Hz|].
  assert (1 <= mag radix2 (IZR z))%Z; [|lia].
  apply mag_ge_bpow. cbn [bpow Z.sub Z.add Z.opp Z.pos_sub]. rewrite <- abs_IZR. apply IZR_le. lia.
Qed.
Lemma rnd_grid z t : (0 <= t <= 1000)%Z -> (Z.abs z <= 2 ^ 53)%Z -> rnd64 (IZR z / IZR (2 ^ t)) = IZR z / IZR (2 ^ t).
Proof. intros. apply rnd_id, fmt_grid; auto. Qed.

(** ** A square root compared with a length *)
Lemma tie_exact (S z t : Z) : (0 <= t <= 22)%Z -> (1 <= S)%Z -> (0 <= z <= 2 ^ 24)%Z ->
  rnd64 (sqrt (IZR S) / IZR (2 ^ t)) = IZR z / IZR (2 ^ t) -> S = (z * z)%Z.
Proof.
  intros Ht HS Hz E. pose proof u_tiny as U. pose proof (pow2_pos t ltac:(lia)) as G. set (g := IZR (2 ^ t)) in *.
  pose proof (rnd_err_rel (sqrt (IZR S) / g)) as R. rewrite E in R.
  assert (S1 : 1 <= IZR S) by (apply IZR_le; lia).
  assert (Q1 : 1 <= sqrt (IZR S)) by (rewrite <- sqrt_1; apply sqrt_le_1_alt; exact S1).
  assert (Q : sqrt (IZR S) * sqrt (IZR S) = IZR S) by (apply sqrt_sqrt; lra).
  set (q := sqrt (IZR S)) in *.
  assert (D : Rabs (IZR z - q) <= 2 * u * q).
  { replace (IZR z - q) with ((IZR z / g - q / g) * g) by (field; lra).
    rewrite Rabs_mult, (Rabs_right g) by lra.
    assert (Pq : 0 <= q / g) by (apply Rmult_le_pos; [lra|apply Rlt_le, Rinv_0_lt_compat, G]).
    rewrite (Rabs_right (q / g)) in R by lra.
    apply Rle_trans with ((u * (q / g) + B (-1075)) * g); [apply Rmult_le_compat_r; [lra|exact R]|].
    replace ((u * (q / g) + B (-1075)) * g) with (u * q + B (-1075) * g) by (field; lra).
    assert (T : B (-1075) * g <= u).
    { unfold g. rewrite pow2_bpow by lia. rewrite <- bpow_plus. apply bpow_le. lia. }
    nra. }
  apply Rabs_le_inv in D.
  assert (Z0 : 0 <= IZR z <= 16777216) by (split; apply IZR_le; lia).
  assert (U2 : u <= / 9007199254740992) by (right; reflexivity).
  assert (Uq : 0 <= u * q <= / 9007199254740992 * q) by (split; [apply Rmult_le_pos|apply Rmult_le_compat_r]; lra).
  assert (Hq : q <= 16777217) by lra.
  assert (K : Rabs (IZR S - IZR z * IZR z) < 1).
  { rewrite <- Q. replace (q * q - IZR z * IZR z) with ((q - IZR z) * (q + IZR z)) by ring.
    rewrite Rabs_mult, (Rabs_right (q + IZR z)) by lra.
    assert (A : Rabs (q - IZR z) <= / 100000000) by (apply Rabs_le; lra).
    pose proof (Rabs_pos (q - IZR z)). nra. }
  rewrite <- mult_IZR, <- minus_IZR, <- abs_IZR in K. apply lt_IZR in K. lia.
Qed.
Section Root.
Variables (S z t : Z).
Hypothesis (Ht : (0 <= t <= 22)%Z) (HS : (0 <= S)%Z) (Hz : (0 <= z <= 2 ^ 24)%Z).
Lemma root_cmp : ((S <= z * z)%Z <-> sqrt (IZR S) / IZR (2 ^ t) <= IZR z / IZR (2 ^ t)) /\
  ((z * z <= S)%Z <-> IZR z / IZR (2 ^ t) <= sqrt (IZR S) / IZR (2 ^ t)).
Proof.
  pose proof (pow2_pos t ltac:(lia)) as G. assert (S0 : 0 <= IZR S) by (apply IZR_le; lia). assert (Z0 : 0 <= IZR z) by (apply IZR_le; lia).
  pose proof (sqrt_sqrt _ S0) as Q. pose proof (sqrt_pos (IZR S)) as P.
  assert (Sc : forall a b, a / IZR (2 ^ t) <= b / IZR (2 ^ t) <-> a <= b).
  { intros a b. unfold Rdiv. pose proof (Rinv_0_lt_compat _ G). split; intros H0; [apply Rmult_le_reg_r with (/ IZR (2 ^ t))|apply Rmult_le_compat_r]; lra. }
  rewrite !Sc. split; split; intros H.
  - apply IZR_le in H. rewrite mult_IZR in H. apply Rsqr_incr_0_var; unfold Rsqr; lra.
  - apply le_IZR. rewrite mult_IZR. nra.
  - apply IZR_le in H. rewrite mult_IZR in H. apply Rsqr_incr_0_var; unfold Rsqr; lra.
  - apply le_IZR. rewrite mult_IZR. nra.
Qed.
Lemma root_rnd : (rnd64 (sqrt (IZR S) / IZR (2 ^ t)) <= IZR z / IZR (2 ^ t) <-> (S <= z * z)%Z) /\
  (IZR z / IZR (2 ^ t) <= rnd64 (sqrt (IZR S) / IZR (2 ^ t)) <-> (z * z <= S)%Z).
Proof.
  destruct root_cmp as [C1 C2]. pose proof (rnd_grid z t ltac:(lia) ltac:(lia)) as Rz.
  assert (T : rnd64 (sqrt (IZR S) / IZR (2 ^ t)) = IZR z / IZR (2 ^ t) -> S = (z * z)%Z).
  { intros E. destruct (Z.eq_dec S 0) as [Z0|N]; [|apply (tie_exact S z t); auto; lia].
    pose proof (pow2_pos t ltac:(lia)) as G. rewrite Z0 in *. rewrite sqrt_0 in E. unfold Rdiv in E. rewrite Rmult_0_l, rnd_0 in E.
    pose proof (Rinv_0_lt_compat _ G) as Gi. assert (E0 : IZR z = 0) by (apply Rmult_eq_reg_r with (/ IZR (2 ^ t)); lra).
    apply eq_IZR in E0. lia. }
  split; split; intros H.
  - destruct (Z.le_gt_cases S (z * z)) as [|L]; auto. exfalso.
    assert (M : (z * z <= S)%Z) by lia. apply C2, rnd_mono in M. rewrite Rz in M.
    assert (E : rnd64 (sqrt (IZR S) / IZR (2 ^ t)) = IZR z / IZR (2 ^ t)) by lra. apply T in E. lia.
  - apply C1, rnd_mono in H. rewrite Rz in H. exact H.
  - destruct (Z.le_gt_cases (z * z) S) as [|L]; auto. exfalso.
    assert (M : (S <= z * z)%Z) by lia. apply C1, rnd_mono in M. rewrite Rz in M.
    assert (E : rnd64 (sqrt (IZR S) / IZR (2 ^ t)) = IZR z / IZR (2 ^ t)) by lra. apply T in E. lia.
  - apply C2, rnd_mono in H. rewrite Rz in H. exact H.
Qed.
End Root.

(** ** Coordinates on the grid *)
Definition num (t n a i : Z) : Z := ((i - n / 2) * 2 ^ t - a)%Z.
Lemma num_bound t n a i : (0 <= t)%Z -> (0 <= i < n)%Z -> (n * 2 ^ t <= 2 ^ 23)%Z -> (Z.abs a <= 2 ^ 23)%Z -> (Z.abs (num t n a i) <= 2 ^ 24)%Z.
Proof.
  intros Ht Hi Hn Ha. unfold num.
  assert (D : (- n <= i - n / 2 <= n)%Z) by (pose proof (Z.div_pos n 2 ltac:(lia) ltac:(lia)); pose proof (Z.div_le_upper_bound n 2 n ltac:(lia) ltac:(lia)); lia).
  pose proof (Z.pow_pos_nonneg 2 t ltac:(lia) Ht). assert ((Z.abs (i - n / 2) * 2 ^ t <= n * 2 ^ t)%Z) by (apply Z.mul_le_mono_nonneg_r; lia).
  assert (E : Z.abs ((i - n / 2) * 2 ^ t) = (Z.abs (i - n / 2) * 2 ^ t)%Z) by (rewrite Z.abs_mul, (Z.abs_eq (2 ^ t)) by lia; reflexivity). lia.
Qed.
Lemma num_px t n a i : (0 <= t)%Z -> IZR (num t n a i) / IZR (2 ^ t) = px n (IZR a / IZR (2 ^ t)) i.
Proof. intros Ht. pose proof (pow2_pos t Ht). unfold num, px. rewrite minus_IZR, mult_IZR. field. lra. Qed.
Lemma col_grid t n a i : (0 <= t <= 22)%Z -> (0 <= i < n)%Z -> (n * 2 ^ t <= 2 ^ 23)%Z -> (Z.abs a <= 2 ^ 23)%Z ->
  col n (IZR a / IZR (2 ^ t)) i = IZR (num t n a i) / IZR (2 ^ t).
Proof.
  intros Ht Hi Hn Ha. unfold col. change (IZR (i - n / 2) - IZR a / IZR (2 ^ t)) with (px n (IZR a / IZR (2 ^ t)) i).
  rewrite <- num_px by lia. pose proof (num_bound t n a i ltac:(lia) Hi Hn Ha). apply rnd_grid; lia.
Qed.
Lemma dist_grid t p q : (0 <= t <= 22)%Z -> (Z.abs p <= 2 ^ 24)%Z -> (Z.abs q <= 2 ^ 24)%Z ->
  dist (IZR p / IZR (2 ^ t)) (IZR q / IZR (2 ^ t)) = rnd64 (sqrt (IZR (p * p + q * q)) / IZR (2 ^ t)).
Proof.
  intros Ht Hp Hq. pose proof (pow2_pos t ltac:(lia)) as G.
  assert (G2 : IZR (2 ^ (2 * t)) = IZR (2 ^ t) * IZR (2 ^ t)) by (rewrite <- mult_IZR, <- Z.pow_add_r by lia; replace (t + t)%Z with (2 * t)%Z by lia; reflexivity).
  assert (Sq : forall z, (Z.abs z <= 2 ^ 24)%Z -> rnd64 (IZR z / IZR (2 ^ t) * (IZR z / IZR (2 ^ t))) = IZR (z * z) / IZR (2 ^ (2 * t))).
  { intros z Hz. rewrite <- (rnd_grid (z * z) (2 * t)) by nia. f_equal. rewrite G2, mult_IZR. field. lra. }
  unfold dist. rewrite (Sq p Hp), (Sq q Hq).
  replace (IZR (p * p) / IZR (2 ^ (2 * t)) + IZR (q * q) / IZR (2 ^ (2 * t))) with (IZR (p * p + q * q) / IZR (2 ^ (2 * t)))
    by (rewrite plus_IZR; unfold Rdiv; ring).
  assert (Pb : (0 <= p * p <= 2 ^ 48)%Z) by nia. assert (Qb : (0 <= q * q <= 2 ^ 48)%Z) by nia.
  rewrite rnd_grid by lia. f_equal. rewrite G2, sqrt_div_alt by nra. rewrite sqrt_square by lra. reflexivity.
Qed.
Lemma sq_grid t p q z : (0 <= t)%Z ->
  ((p * p + q * q <= z * z)%Z <-> (IZR p / IZR (2 ^ t)) ^ 2 + (IZR q / IZR (2 ^ t)) ^ 2 <= (IZR z / IZR (2 ^ t)) ^ 2) /\
  ((z * z <= p * p + q * q)%Z <-> (IZR z / IZR (2 ^ t)) ^ 2 <= (IZR p / IZR (2 ^ t)) ^ 2 + (IZR q / IZR (2 ^ t)) ^ 2).
Proof.
  intros Ht. pose proof (pow2_pos t Ht) as G. set (g := IZR (2 ^ t)) in *.
  assert (Gi : 0 < / (g * g)) by (apply Rinv_0_lt_compat; nra).
  replace ((IZR p / g) ^ 2 + (IZR q / g) ^ 2) with (IZR (p * p + q * q) * / (g * g)) by (rewrite plus_IZR, !mult_IZR; field; lra).
  replace ((IZR z / g) ^ 2) with (IZR (z * z) * / (g * g)) by (rewrite mult_IZR; field; lra).
  split; split; intros H; try (apply Rmult_le_compat_r; [lra|apply IZR_le; exact H]); apply le_IZR, (Rmult_le_reg_r (/ (g * g))); auto.
Qed.

Lemma grid_within t x : (0 <= t)%Z -> grid_length t x -> within 400 x.
Proof.
  intros Ht (F & z & E & Hz). split; auto. rewrite E. pose proof (pow2_pos t Ht) as G.
  assert (G1 : 1 <= IZR (2 ^ t)) by (apply IZR_le; pose proof (Z.pow_pos_nonneg 2 t); lia).
  apply Rle_trans with (B 23); [|apply bpow_le; lia].
  unfold Rdiv. rewrite Rabs_mult, (Rabs_right (/ _)) by (apply Rle_ge, Rlt_le, Rinv_0_lt_compat, G).
  assert (A : Rabs (IZR z) <= B 23) by (rewrite <- abs_IZR, <- pow2_bpow by lia; apply IZR_le, Hz).
  apply Rle_trans with (Rabs (IZR z) * 1); [|lra]. apply Rmult_le_compat_l; [apply Rabs_pos|]. rewrite <- Rinv_1. apply Rinv_le_contravar; lra.
Qed.
Lemma size_50 t n : (0 <= t)%Z -> (0 < n)%Z -> (n * 2 ^ t <= 2 ^ 23)%Z -> (n <= 2 ^ 50)%Z.
Proof. intros Ht Hn H. pose proof (Z.pow_pos_nonneg 2 t ltac:(lia) Ht). nia. Qed.
Lemma px_shift n off i : px n off i = px n 0 i - off. Proof. unfold px. ring. Qed.

Lemma rho_coord nRows nCols xo yo i j : (0 <= i < nRows)%Z -> (0 <= j < nCols)%Z -> (nRows <= 2 ^ 50)%Z -> (nCols <= 2 ^ 50)%Z ->
  within 400 xo -> within 400 yo ->
  let r := rho_f (coord_x_f nCols xo j) (coord_y_f nRows yo i) in
  fval r = dist (col nCols (fval xo) j) (col nRows (fval yo) i) /\ is_finite r = true.
Proof.
  intros Hi Hj Hr Hc Wx Wy. destruct (axis_val nCols xo j Hj Hc Wx) as [Vx Ax]. destruct (axis_val nRows yo i Hi Hr Wy) as [Vy Ay].
  destruct (rho_val _ _ (within_le 401 403 _ ltac:(lia) Ax) (within_le 401 403 _ ltac:(lia) Ay)) as [V W].
  unfold coord_x_f, coord_y_f. cbv zeta. rewrite V, Vx, Vy. split; [reflexivity|apply W].
Qed.
Lemma fle_true x y : is_finite x = true -> is_finite y = true -> (fle x y = true <-> fval x <= fval y).
Proof. intros Hx Hy. rewrite fle_val by auto. destruct (Rle_bool_spec (fval x) (fval y)); split; auto; try discriminate; lra. Qed.

Lemma annulus_checks n m xo yo ri ro : (0 < n)%Z -> (0 < m)%Z -> is_finite ri = true -> is_finite ro = true -> 0 <= fval ri <= fval ro ->
  gen_annulus_f n m xo yo ri ro = Ok (Arr n m (fun i j =>
    let r := rho_f (coord_x_f m xo j) (coord_y_f n yo i) in fle ri r && fle r ro)).
Proof.
  intros Hn Hm Fi Fo H. unfold gen_annulus_f. rewrite !guard_true; auto.
  all: try (apply Z.ltb_lt; lia); apply negb_true_iff; rewrite flt_val by auto; apply Rlt_bool_false; change (fval fzero) with 0; lra.
Qed.
Theorem annulus_exact t n m xo yo ri ro : grid_size t n m -> grid_length t xo -> grid_length t yo ->
  grid_length t ri -> grid_length t ro -> 0 <= fval ri <= fval ro ->
  exists a, gen_annulus_f n m xo yo ri ro = Ok a /\ good n m a (Annulus (fval xo) (fval yo) (fval ri) (fval ro)).
Proof.
  intros (Ht & Hn & Ln & Hm & Lm) Gx Gy Gi Go H.
  pose proof (grid_within t xo ltac:(lia) Gx) as Wx. pose proof (grid_within t yo ltac:(lia) Gy) as Wy.
  destruct Gx as (_ & a & Ea & Ha), Gy as (_ & b & Eb & Hb), Gi as (Fi & p & Ep & Hp), Go as (Fo & q & Eq & Hq).
  rewrite annulus_checks by auto. eexists. split; [reflexivity|]. split; [reflexivity|]. split; [reflexivity|].
  intros i j Hi Hj. cbn [at2 in_shape]. cbv zeta. unfold annulus_set. rewrite <- !px_shift.
  destruct (rho_coord n m xo yo i j Hi Hj (size_50 t n ltac:(lia) Hn Ln) (size_50 t m ltac:(lia) Hm Lm) Wx Wy) as [V F]. cbv zeta in V, F.
  rewrite andb_true_iff, !fle_true by auto. rewrite V, Ea, Eb, Ep, Eq.
  pose proof (num_bound t m a j ltac:(lia) Hj Lm Ha) as Bj. pose proof (num_bound t n b i ltac:(lia) Hi Ln Hb) as Bi.
  rewrite !col_grid, dist_grid, <- !num_px by (auto; lia).
  set (x := num t m a j) in *. set (y := num t n b i) in *.
  pose proof (pow2_pos t ltac:(lia)) as G.
  assert (Pos : forall z, 0 <= IZR z / IZR (2 ^ t) -> (0 <= z)%Z).
  { intros z Hz. apply le_IZR. replace (IZR z) with (IZR z / IZR (2 ^ t) * IZR (2 ^ t)) by (field; lra). apply Rmult_le_pos; lra. }
  assert (P0 : (0 <= p)%Z) by (apply Pos; lra). assert (Q0 : (0 <= q)%Z) by (apply Pos; lra).
  destruct (root_rnd (x * x + y * y) p t Ht ltac:(nia) ltac:(lia)) as [_ R1].
  destruct (root_rnd (x * x + y * y) q t Ht ltac:(nia) ltac:(lia)) as [R2 _].
  destruct (sq_grid t x y p ltac:(lia)) as [_ S1]. destruct (sq_grid t x y q ltac:(lia)) as [S2 _].
  rewrite R1, R2, S1, S2. tauto.
Qed.

Lemma annulus_near k n m xo yo ri ro : frame_upto k n m xo yo -> is_finite ri = true -> is_finite ro = true -> 0 <= fval ri <= fval ro ->
  exists a, gen_annulus_f n m xo yo ri ro = Ok a /\ nr a = n /\ nc a = m /\
  forall i j, (0 <= i < n)%Z -> (0 <= j < m)%Z -> let d := distance (fval xo) (fval yo) (px m 0 j) (px n 0 i) in
    (at2 a i j = true -> fval ri - B (k - 47) <= d <= fval ro + B (k - 47)) /\
    (fval ri + B (k - 47) <= d <= fval ro - B (k - 47) -> at2 a i j = true).
Proof.
  intros (Hk & Hn & Hm & [Fx Wx] & [Fy Wy]) Fi Fo H.
  rewrite annulus_checks by (auto; lia). eexists. split; [reflexivity|]. split; [reflexivity|]. split; [reflexivity|].
  intros i j Hi Hj. cbv zeta. cbn [at2]. cbv zeta.
  assert (P2 : (2 ^ k <= 2 ^ 50)%Z) by (apply Z.pow_le_mono_r; lia). assert (P3 : B k <= B 400) by (apply bpow_le; lia).
  destruct (rho_coord n m xo yo i j Hi Hj ltac:(lia) ltac:(lia) (conj Fx (Rle_trans _ _ _ Wx P3)) (conj Fy (Rle_trans _ _ _ Wy P3))) as [V F]. cbv zeta in V, F.
  rewrite andb_true_iff, !fle_true by auto. rewrite V. set (w := B k). assert (Ew : w = B k) by reflexivity.
  assert (Nx : IZR m <= w) by (unfold w; rewrite <- pow2_bpow by lia; apply IZR_le; lia).
  assert (Ny : IZR n <= w) by (unfold w; rewrite <- pow2_bpow by lia; apply IZR_le; lia).
  pose proof (pix_dist w k _ _ _ _ Ew Hk (px_bound m (fval xo) j w k Ew Hk Hj Nx Wx) (px_bound n (fval yo) i w k Ew Hk Hi Ny Wy)
    (col_err m (fval xo) j w k Ew Hk Hj Nx Wx) (col_err n (fval yo) i w k Ew Hk Hi Ny Wy)) as D.
  assert (Tk : B (k - 47) = 64 * w * u).
  { unfold w. change 64 with (B 6). rewrite <- !bpow_plus. f_equal. lia. }
  rewrite Tk. unfold distance. rewrite <- !px_shift. fold (hyp (px m (fval xo) j) (px n (fval yo) i)).
  apply Rabs_le_inv in D. split; intros; lra.
Qed.

(** ** Rectangles *)
Lemma half_double w : is_finite w = true -> B (-1000) <= fval w -> fval (fdiv w (fofZ 2)) = fval w / 2 /\ is_finite (fdiv w (fofZ 2)) = true.
Proof.
  intros F L. assert (P : 0 < fval w) by (eapply Rlt_le_trans; [apply bpow_gt_0|exact L]).
  assert (E : fval w / 2 = fval w * B (-1)) by (change (B (-1)) with (/ 2); reflexivity).
  assert (Fm : fmt64 (fval w / 2)).
  { rewrite E. apply (mult_bpow_exact_FLT radix2 (-1074) 53 (fval w) (-1)); [apply fval_format|].
    assert ((-1000) + 1 <= mag radix2 (fval w))%Z; [|lia].
    apply mag_ge_bpow. rewrite Rabs_right by lra. replace (-1000 + 1 - 1)%Z with (-1000)%Z by lia. exact L. }
  destruct (fofZ_spec 2 ltac:(lia)) as [V2 F2].
  assert (D := fdiv_spec w (fofZ 2)). rewrite V2 in D. rewrite (rnd_id _ Fm) in D. refine (D F ltac:(discrR) _).
  pose proof (fval_bound w). rewrite Rabs_right in * by lra. lra.
Qed.
Lemma abs_val x : fval (Babs x) = Rabs (fval x) /\ is_finite (Babs x) = is_finite x.
Proof. split; [apply B2R_Babs|apply is_finite_Babs]. Qed.
Lemma rectangle_checks n m xo yo w h : (0 < n)%Z -> (0 < m)%Z -> is_finite w = true -> is_finite h = true -> 0 < fval w -> 0 < fval h ->
  gen_rectangle_f n m xo yo w h = Ok (Arr n m (fun i j =>
    fle (Babs (coord_x_f m xo j)) (fdiv w (fofZ 2)) && fle (Babs (coord_y_f n yo i)) (fdiv h (fofZ 2)))).
Proof.
  intros Hn Hm Fw Fh Pw Ph. unfold gen_rectangle_f. rewrite !guard_true; auto.
  all: try (apply Z.ltb_lt; lia); apply negb_true_iff; rewrite fle_val by auto; apply Rle_bool_false; change (fval fzero) with 0; lra.
Qed.
Lemma side_test n off i w : (0 <= i < n)%Z -> (n <= 2 ^ 50)%Z -> within 400 off -> is_finite w = true -> B (-1000) <= fval w ->
  (fle (Babs (axis_f n off i)) (fdiv w (fofZ 2)) = true <-> Rabs (col n (fval off) i) <= fval w / 2).
Proof.
  intros Hi Hn Wo F L. destruct (axis_val n off i Hi Hn Wo) as [V A]. destruct (half_double w F L) as [Vh Fh].
  destruct (abs_val (axis_f n off i)) as [Va Fa]. rewrite fle_true; [|rewrite Fa; apply A|exact Fh]. rewrite Va, V, Vh. reflexivity.
Qed.
Lemma grid_large t w : (0 <= t <= 22)%Z -> grid_length t w -> 0 < fval w -> B (-1000) <= fval w.
Proof.
  intros Ht (F & z & E & Hz) P. pose proof (pow2_pos t ltac:(lia)) as G. rewrite E in *.
  assert (Z1 : 1 <= IZR z).
  { apply IZR_le. assert (0 < IZR z) by (replace (IZR z) with (IZR z / IZR (2 ^ t) * IZR (2 ^ t)) by (field; lra); apply Rmult_lt_0_compat; lra).
    apply lt_IZR in H. lia. }
  apply Rle_trans with (B (- t)); [apply bpow_le; lia|]. rewrite bpow_opp, <- pow2_bpow by lia. unfold Rdiv.
  pose proof (Rinv_0_lt_compat _ G). nra.
Qed.
Theorem rectangle_exact t n m xo yo w h : grid_size t n m -> grid_length t xo -> grid_length t yo ->
  grid_length t w -> grid_length t h -> 0 < fval w -> 0 < fval h ->
  exists a, gen_rectangle_f n m xo yo w h = Ok a /\ good n m a (Rectangle (fval xo) (fval yo) (fval w) (fval h)).
Proof.
  intros (Ht & Hn & Ln & Hm & Lm) Gx Gy Gw Gh Pw Ph.
  pose proof (grid_within t xo ltac:(lia) Gx) as Wx. pose proof (grid_within t yo ltac:(lia) Gy) as Wy.
  pose proof (grid_large t w Ht Gw Pw) as Lw. pose proof (grid_large t h Ht Gh Ph) as Lh.
  destruct Gx as (_ & a & Ea & Ha), Gy as (_ & b & Eb & Hb), Gw as (Fw & _), Gh as (Fh & _).
  rewrite rectangle_checks by auto. eexists. split; [reflexivity|]. split; [reflexivity|]. split; [reflexivity|].
  intros i j Hi Hj. cbn [at2 in_shape]. rewrite andb_true_iff. unfold coord_x_f, coord_y_f.
  rewrite !side_test by (auto; eapply size_50; eauto; lia).
  rewrite Ea, Eb, !col_grid, !num_px, <- !px_shift by (auto; lia). reflexivity.
Qed.
Lemma side_near k n off i w : (0 <= k <= 40)%Z -> (0 <= i < n)%Z -> (n <= 2 ^ k)%Z -> within k off -> is_finite w = true -> B (-1000) <= fval w ->
  let c := fle (Babs (axis_f n off i)) (fdiv w (fofZ 2)) in
  (c = true -> Rabs (px n (fval off) i) <= (fval w + B (k - 51)) / 2) /\ (Rabs (px n (fval off) i) <= fval w / 2 -> c = true).
Proof.
  intros Hk Hi Hn [Fo Wo] F L c. assert (P2 : (2 ^ k <= 2 ^ 50)%Z) by (apply Z.pow_le_mono_r; lia). assert (P3 : B k <= B 400) by (apply bpow_le; lia).
  unfold c. rewrite side_test by (auto; try lia; split; auto; lra). destruct (half_double w F L) as [Vh Fh]. split.
  - intros H. assert (Nx : IZR n <= B k) by (rewrite <- pow2_bpow by lia; apply IZR_le; lia).
    pose proof (col_err n (fval off) i (B k) k eq_refl Hk Hi Nx Wo) as E.
    assert (Tk : B (k - 51) = 4 * B k * u) by (change 4 with (B 2); rewrite <- !bpow_plus; f_equal; lia).
    rewrite Tk. apply Rabs_le_inv in E, H. apply Rabs_le. lra.
  - intros H. unfold col. change (IZR (i - n / 2) - fval off) with (px n (fval off) i).
    assert (A : Rabs (rnd64 (px n (fval off) i)) <= rnd64 (fval w / 2)).
    { apply Rabs_le_inv in H. apply Rabs_le. rewrite <- rnd_opp. split; apply rnd_mono; lra. }
    rewrite <- Vh in A. rewrite (rnd_id _ (fval_format _)), Vh in A. exact A.
Qed.
Lemma rectangle_near k n m xo yo w h : frame_upto k n m xo yo -> is_finite w = true -> is_finite h = true -> B (-1000) <= fval w -> B (-1000) <= fval h ->
  exists a, gen_rectangle_f n m xo yo w h = Ok a /\ nr a = n /\ nc a = m /\
  forall i j, (0 <= i < n)%Z -> (0 <= j < m)%Z ->
    (in_shape (Rectangle (fval xo) (fval yo) (fval w) (fval h)) (px m 0 j) (px n 0 i) -> at2 a i j = true) /\
    (at2 a i j = true -> in_shape (Rectangle (fval xo) (fval yo) (fval w + B (k - 51)) (fval h + B (k - 51))) (px m 0 j) (px n 0 i)).
Proof.
  intros (Hk & Hn & Hm & Wx & Wy) Fw Fh Lw Lh. pose proof (bpow_gt_0 radix2 (-1000)).
  rewrite rectangle_checks by (auto; try lia; lra). eexists. split; [reflexivity|]. split; [reflexivity|]. split; [reflexivity|].
  intros i j Hi Hj. cbn [at2 in_shape]. rewrite andb_true_iff, <- !px_shift.
  destruct (side_near k m xo j w Hk Hj ltac:(lia) Wx Fw Lw) as [X1 X2]. destruct (side_near k n yo i h Hk Hi ltac:(lia) Wy Fh Lh) as [Y1 Y2].
  unfold coord_x_f, coord_y_f. tauto.
Qed.

(** ** Refusals *)
Lemma rectangle_err n m xo yo w h : (n <= 0)%Z \/ (m <= 0)%Z \/ fle w fzero = true \/ fle h fzero = true ->
  gen_rectangle_f n m xo yo w h = Err TypeError.
Proof.
  intros H. unfold gen_rectangle_f. destruct (0 <? n)%Z eqn:E1; [|reflexivity]. destruct (0 <? m)%Z eqn:E2; [|reflexivity].
  destruct (fle w fzero); [reflexivity|]. destruct (fle h fzero); [reflexivity|].
  exfalso. apply Z.ltb_lt in E1, E2. destruct H as [H|[H|[H|H]]]; (lia || discriminate).
Qed.
Lemma annulus_err n m xo yo ri ro :
  ((n <= 0)%Z \/ (m <= 0)%Z \/ flt ri fzero = true \/ flt ro fzero = true -> gen_annulus_f n m xo yo ri ro = Err TypeError) /\
  ((0 < n)%Z -> (0 < m)%Z -> flt ri fzero = false -> flt ro fzero = false -> flt ro ri = true -> gen_annulus_f n m xo yo ri ro = Err ValueError).
Proof.
  unfold gen_annulus_f. split.
  - intros H. destruct (0 <? n)%Z eqn:E1; [|reflexivity]. destruct (0 <? m)%Z eqn:E2; [|reflexivity].
    destruct (flt ri fzero); [reflexivity|]. destruct (flt ro fzero); [reflexivity|].
    exfalso. apply Z.ltb_lt in E1, E2. destruct H as [H|[H|[H|H]]]; (lia || discriminate).
  - intros Hn Hm E1 E2 E3. apply Z.ltb_lt in Hn, Hm. rewrite Hn, Hm, E1, E2, E3. reflexivity.
Qed.
