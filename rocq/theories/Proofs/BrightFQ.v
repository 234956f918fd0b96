(** The centre of energy, the quadrant balance and the root mean square in double precision. *)
From Coq Require Import ZArith Reals Bool List Permutation Lia Lra Psatz.
From Flocq Require Import Core BinarySingleNaN.
From Verif.Base Require Import Py Arr Sums F64 Lstsq.
From Verif.Model Require Import Fits ShapesF BrightF.
From Verif.Spec Require Import FitsSpec BrightFSpec DarkHoleFSpec.
From Verif.Proofs Require Import F64P F64N ShapesFA ShapesFP DarkHoleFP FitsP QuadNumP BrightFP.
Import ListNotations.
Local Open Scope R_scope.
Local Notation B := (bpow radix2).
Local Notation u := (B (-53)).
Local Notation eta := (B (-1075)).

(** ** Values that are not finite *)
Lemma in_pts (a : arr f64) i j : in_arr a i j -> In (i, j) (indices (nr a) (nc a)).
Proof. intros [Hi Hj]. apply in_indices. auto. Qed.
Lemma nonfin_nonzero (x : f64) : is_finite x = false -> negb (feq x fzero) = true.
Proof. destruct x as [|[]| |]; cbn; congruence || reflexivity. Qed.
Lemma center_nonfinite sm a i j : sums_up sm -> in_arr a i j -> is_finite (at2 a i j) = false ->
  center_of_energy_f sm a = (fnan, fnan).
Proof.
  intros Hs I F. unfold center_of_energy_f.
  assert (P : In (i, j) (nonzero_f a)).
  { apply filter_In. split; [apply in_pts; auto|]. cbn [fst snd]. apply nonfin_nonzero. exact F. }
  set (en := fun p : Z * Z => at2 a (fst p) (snd p)). set (T := sm (map en (nonzero_f a))).
  assert (FT : is_finite T = false) by (apply (added_nonfin _ _ (en (i, j)) (Hs _)); [apply in_map; auto|exact F]).
  assert (G : forall idx : Z * Z -> Z, sm (map (fun p => fmul (fofZ (idx p)) (fdiv (en p) T)) (nonzero_f a)) = fnan).
  { intros idx. apply (added_nan _ _ (Hs _)). apply in_map_iff. exists (i, j). split; auto.
    rewrite (fdiv_nonfin (en (i, j)) T) by auto. apply fmul_nan_r. }
  rewrite !G. reflexivity.
Qed.
Lemma from_origin_val n o i : (0 <= i < n)%Z -> (0 <= o)%Z -> (n <= 2 ^ 50)%Z -> (o <= 2 ^ 50)%Z ->
  fval (from_origin_f n o i) = IZR (i - o) /\ within 54 (from_origin_f n o i).
Proof.
  intros Hi Ho Hn Hb. unfold from_origin_f.
  destruct (fofZ_spec (- o) ltac:(lia)) as [V1 _]. destruct (fofZ_spec (n - o - 1) ltac:(lia)) as [V2 _].
  destruct (linspace_unit (fofZ (- o)) (fofZ (n - o - 1)) (- (2 * o)) n i) as [V W]; try lia.
  - apply fofZ_within; lia.
  - apply fofZ_within; lia.
  - rewrite V1, !opp_IZR, mult_IZR. field.
  - rewrite V2, !opp_IZR, mult_IZR, !minus_IZR. field.
  - split; auto. rewrite V, opp_IZR, mult_IZR, minus_IZR. field.
Qed.
Lemma fsub_nan_lr x y : x = fnan \/ y = fnan -> fsub x y = fnan.
Proof. intros [-> | ->]; [destruct y|destruct x]; reflexivity. Qed.
Lemma zero_leb : fle fzero (fofZ 0) = true. Proof. reflexivity. Qed.
Lemma fle_zero_nonneg x z : is_finite z = true -> fval z = 0 -> flt x fzero = false -> fisnan x = false -> fle z x = true.
Proof.
  intros Fz Vz L N. destruct x as [s|[]| |s m e H]; try discriminate.
  - rewrite fle_val by (auto; reflexivity). rewrite Vz. cbn. apply Rle_bool_true. lra.
  - destruct z as [[]| | |[]]; try discriminate; reflexivity.
  - rewrite flt_val in L by reflexivity. rewrite fle_val by (auto; reflexivity). rewrite Vz.
    apply Rle_bool_true. cbn [fval B2R] in *. destruct (Rlt_bool_spec (fval (B754_finite s m e H)) 0) as [|Hl]; [|exact Hl].
    change (fval fzero) with 0 in L. rewrite Rlt_bool_true in L by auto. discriminate.
Qed.
Lemma quad_nan sm a x0 y0 radius i j : sums_up sm -> (nr a <= 2 ^ 50)%Z -> (nc a <= 2 ^ 50)%Z ->
  in_arr a i j -> fisnan (at2 a i j) = true -> (0 <= x0 < nr a)%Z -> (0 <= y0 < nc a)%Z -> (x0 < nc a)%Z -> (y0 < nr a)%Z ->
  flt radius fzero = false -> fisnan radius = false ->
  quadrant_energy_balance_f sm a x0 y0 radius = Ok (fnan, fnan).
Proof.
  intros Hs S1 S2 I N Hx Hy Hx' Hy' Hr Nr. unfold quadrant_energy_balance_f. rewrite Hr. cbn [negb guard bind].
  rewrite (proj2 (Z.leb_le 0 x0)), (proj2 (Z.leb_le 0 y0)), (proj2 (Z.ltb_lt x0 _)), (proj2 (Z.ltb_lt y0 _)) by lia. cbn [guard bind].
  apply nan_eq in N. set (T := sm (map (fun p => at2 a (fst p) (snd p)) (indices (nr a) (nc a)))).
  assert (ET : T = fnan).
  { apply (added_nan _ _ (Hs _)). apply in_map_iff. exists (i, j). split; [exact N|apply in_pts; auto]. }
  destruct (from_origin_val (nc a) x0 x0 ltac:(lia) ltac:(lia) S2 ltac:(lia)) as [Vx [Fx _]].
  destruct (from_origin_val (nr a) y0 y0 ltac:(lia) ltac:(lia) S1 ltac:(lia)) as [Vy [Fy _]].
  rewrite Z.sub_diag in Vx, Vy.
  assert (G0 : fle fzero (from_origin_f (nc a) x0 x0) = true /\ fle (from_origin_f (nc a) x0 x0) fzero = true).
  { rewrite !fle_val by (auto; reflexivity). rewrite Vx. change (fval fzero) with 0. split; apply Rle_bool_true; lra. }
  assert (G1 : fle fzero (from_origin_f (nr a) y0 y0) = true /\ fle (from_origin_f (nr a) y0 y0) fzero = true).
  { rewrite !fle_val by (auto; reflexivity). rewrite Vy. change (fval fzero) with 0. split; apply Rle_bool_true; lra. }
  assert (R0 : fle (rho_f (from_origin_f (nc a) x0 x0) (from_origin_f (nr a) y0 y0)) radius = true).
  { destruct (rho_val (from_origin_f (nc a) x0 x0) (from_origin_f (nr a) y0 y0)) as [V [F _]].
    - split; auto. rewrite Vx, Rabs_R0. apply bpow_ge_0.
    - split; auto. rewrite Vy, Rabs_R0. apply bpow_ge_0.
    - apply fle_zero_nonneg; auto. rewrite V, Vx, Vy. unfold dist. rewrite !Rmult_0_l, rnd_0, Rplus_0_l, rnd_0, sqrt_0, rnd_0. reflexivity. }
  assert (C : forall sx sy : f64 -> bool, sx (from_origin_f (nc a) x0 x0) = true -> sy (from_origin_f (nr a) y0 y0) = true ->
    sm (map (fun p => fdiv (at2 a (fst p) (snd p)) T) (filter (fun p => sx (from_origin_f (nc a) x0 (snd p)) && sy (from_origin_f (nr a) y0 (fst p)) &&
      fle (rho_f (from_origin_f (nc a) x0 (snd p)) (from_origin_f (nr a) y0 (fst p))) radius) (indices (nr a) (nc a)))) = fnan).
  { intros sx sy Ex Ey. apply (added_nan _ _ (Hs _)). apply in_map_iff. exists (y0, x0). split; [rewrite ET; apply fdiv_nan_r|].
    apply filter_In. split; [apply in_indices; cbn [fst snd]; lia|]. cbn [fst snd]. rewrite Ex, Ey, R0. reflexivity. }
  rewrite !C by tauto. reflexivity.
Qed.
Lemma filter_none {A} (f : A -> bool) l : (forall x, f x = false) -> filter f l = [].
Proof. intros H. induction l as [|x l IH]; cbn; auto. rewrite H. exact IH. Qed.
Lemma added_none s : added_up [] s -> is_finite s = true /\ fval s = 0.
Proof.
  intros A. destruct (sum_rel [] s A) as (F & N & Hu & _).
  - intros x [].
  - unfold klen. cbn [List.length Nat.pred INR]. apply bpow_ge_0.
  - cbn [lsum]. apply bpow_gt_0.
  - split; auto. unfold klen in Hu. cbn [List.length Nat.pred INR lsum] in Hu. lra.
Qed.
Lemma fle_nan_right x : fle x fnan = false. Proof. destruct x as [[]|[]| |[]]; reflexivity. Qed.
Lemma quad_nan_radius sm a x0 y0 : sums_up sm -> (0 <= x0 < nr a)%Z -> (0 <= y0 < nc a)%Z ->
  exists bx by_, quadrant_energy_balance_f sm a x0 y0 fnan = Ok (bx, by_) /\ near bx 0 0 /\ near by_ 0 0.
Proof.
  intros Hs Hx Hy. unfold quadrant_energy_balance_f. change (flt fnan fzero) with false. cbn [negb guard bind].
  rewrite (proj2 (Z.leb_le 0 x0)), (proj2 (Z.leb_le 0 y0)), (proj2 (Z.ltb_lt x0 _)), (proj2 (Z.ltb_lt y0 _)) by lia. cbn [guard bind].
  do 2 eexists. split; [reflexivity|].
  rewrite !(filter_none (fun p => _ && _ && fle (rho_f _ _) fnan)) by (intros; rewrite fle_nan_right; apply andb_false_r).
  cbn [map]. destruct (added_none _ (Hs [])) as [F V].
  assert (G : forall x y, is_finite x = true -> is_finite y = true -> fval x = 0 -> fval y = 0 -> is_finite (fadd x y) = true /\ fval (fadd x y) = 0 /\
    is_finite (fsub x y) = true /\ fval (fsub x y) = 0).
  { intros x y Fx Fy Vx Vy.
    assert (B0 : Rabs (rnd64 0) < B 1024) by (rewrite rnd_0, Rabs_R0; apply bpow_gt_0).
    destruct (fadd_spec x y Fx Fy) as [A1 A2]; [rewrite Vx, Vy, Rplus_0_r; exact B0|].
    destruct (fsub_spec x y Fx Fy) as [A3 A4]; [rewrite Vx, Vy, Rminus_0_r; exact B0|].
    rewrite Vx, Vy, Rplus_0_r, rnd_0 in A1. rewrite Vx, Vy, Rminus_0_r, rnd_0 in A3. auto. }
  destruct (G (sm []) (sm []) F F V V) as (F2 & V2 & _ & _). destruct (G _ _ F2 F2 V2 V2) as (_ & _ & F3 & V3).
  split; (split; [exact F3|]); rewrite V3, Rminus_0_r, Rabs_R0; lra.
Qed.
Lemma rms_nan sm l : sums_up sm -> In fnan l -> rms_f sm l = fnan.
Proof.
  intros Hs I. unfold rms_f. replace (sm (map (fun v => fmul v v) l)) with fnan.
  - rewrite fdiv_nan_l. reflexivity.
  - symmetry. apply (added_nan _ _ (Hs _)). apply in_map_iff. exists fnan. split; auto.
Qed.

(** ** Weights *)
Lemma weight_err e t T x : is_finite e = true -> is_finite t = true -> 0 <= fval e <= T -> 0 < T -> 0 <= x <= / 2048 ->
  fval t * (1 - x) <= T -> T * (1 - x) <= fval t ->
  is_finite (fdiv e t) = true /\ 0 <= fval (fdiv e t) <= 2 /\ fval (fdiv e t) * (1 - x) <= fval e / T * (1 + u) + eta /\
  fval e / T * (1 - u) * (1 - x) - eta <= fval (fdiv e t).
Proof.
  intros Fe Ft He HT Hx H1 H2. pose proof u_tiny as U. pose proof eta_tiny as Et.
  assert (Tp : 0 < fval t) by nra. set (q := fval e / T). set (q' := fval e / fval t).
  assert (Q0 : 0 <= q <= 1).
  { unfold q. split; [apply Rmult_le_pos; [lra|apply Rlt_le, Rinv_0_lt_compat; auto]|]. apply Rmult_le_reg_r with T; auto. unfold Rdiv. rewrite Rmult_assoc, Rinv_l by lra. lra. }
  assert (Q'0 : 0 <= q') by (apply Rmult_le_pos; [lra|apply Rlt_le, Rinv_0_lt_compat; auto]).
  assert (Eq : q' * fval t = fval e) by (unfold q'; field; lra). assert (Eq2 : q * T = fval e) by (unfold q; field; lra).
  assert (A1 : q' * (1 - x) <= q).
  { apply Rmult_le_reg_r with T; auto. rewrite Eq2, <- Eq, Rmult_assoc. apply Rmult_le_compat_l; lra. }
  assert (A2 : q * (1 - x) <= q').
  { apply Rmult_le_reg_r with (fval t); auto. rewrite Eq, <- Eq2, Rmult_assoc. apply Rmult_le_compat_l; lra. }
  assert (A3 : q' <= 1.01) by nra.
  pose proof (rnd_err_rel q') as Er. rewrite (Rabs_right q') in Er by lra.
  destruct (fdiv_spec e t Fe ltac:(lra)) as [V W].
  { fold q'. apply rnd_small with 1%Z; [lia|]. rewrite Rabs_right by lra. change (B 1) with 2. lra. }
  fold q' in V. rewrite V. apply Rabs_le_inv in Er. split; [exact W|]. split; [split; [apply rnd_nonneg; auto|]; nra|].
  set (r := rnd64 q') in *. split; nra.
Qed.
Section Photo.
Variables (sm : list f64 -> f64) (a : arr f64).
Hypothesis (Hs : sums_up sm) (Ph : photograph a).
Let Tr := rsum2 (fun i j => fval (at2 a i j)) (nr a) (nc a).
Let n := IZR (nr a * nc a).
Let en (p : Z * Z) := at2 a (fst p) (snd p).
Lemma indices_length r c : (0 <= r)%Z -> (0 <= c)%Z -> INR (List.length (indices r c)) = IZR (r * c).
Proof.
  intros Hr Hc. unfold indices. rewrite prod_length, mult_INR, mult_IZR. f_equal; rewrite INR_IZR_INZ, length_zrange by auto; reflexivity.
Qed.
Lemma n_range : 1 <= n <= B 41.
Proof.
  destruct Ph as (H1 & H2 & H3 & _). unfold n. split; [apply IZR_le; nia|].
  apply Rle_trans with (IZR (2 ^ 40)); [apply IZR_le; auto|]. change (IZR (2 ^ 40)) with (B 40). apply bpow_le. lia.
Qed.
Lemma en_ok p : In p (indices (nr a) (nc a)) -> is_finite (en p) = true /\ 0 <= fval (en p) <= Tr.
Proof.
  intros I. apply in_indices in I as [Hi Hj]. destruct Ph as (_ & _ & _ & H & _). destruct (H (fst p) (snd p)) as [F N]; [split; auto|].
  split; auto. split; auto. apply (rsum2_term_le (fun i j => fval (at2 a i j))); auto. intros i j I J. apply H. split; auto.
Qed.
Lemma filter_len {A} (f : A -> bool) l : INR (List.length (filter f l)) <= INR (List.length l).
Proof. apply le_INR. induction l as [|x l IH]; cbn; [lia|]. destruct (f x); cbn; lia. Qed.
(** The total of the pixels kept, when the others are dark. *)
Lemma total_err (f : Z * Z -> bool) : (forall p, In p (indices (nr a) (nc a)) -> f p = false -> fval (en p) = 0) ->
  let t := sm (map en (filter f (indices (nr a) (nc a)))) in
  is_finite t = true /\ fval t * (1 - (n - 1) * u) <= Tr /\ Tr * (1 - (n - 1) * u) <= fval t.
Proof.
  intros Hf t. set (pts := filter f (indices (nr a) (nc a))) in *.
  assert (In' : forall p, In p pts -> In p (indices (nr a) (nc a))) by (intros p I; apply filter_In in I; tauto).
  pose proof n_range as [N1 N2]. destruct Ph as (R1 & C1 & _ & _ & T0 & T1). fold Tr in T0, T1.
  assert (E : lsum fval (map en pts) = Tr).
  { transitivity (lsum (fun p => fval (en p)) pts); [clear; induction pts; cbn; congruence|].
    unfold pts. rewrite QuadNumP.lsum_filter. unfold Tr. rewrite <- QuadNumP.lsum_indices. apply lsum_ext. intros p I.
    destruct (f p) eqn:Ef; [reflexivity|]. symmetry. apply Hf; auto. }
  assert (K : klen (map en pts) <= n - 1).
  { unfold klen. rewrite map_length. assert (Lp : INR (List.length pts) <= n)
      by (unfold n; rewrite <- indices_length by lia; apply filter_len).
    destruct pts as [|p l]; [cbn [List.length Nat.pred INR]; lra|]. cbn [List.length Nat.pred] in *. rewrite S_INR in Lp. lra. }
  destruct (sum_rel _ t (Hs _)) as (F & N & Hu & Hl).
  - intros w I. apply in_map_iff in I as (p & <- & I). destruct (en_ok p (In' p I)). tauto.
  - apply Rle_trans with (B 41); [lra|apply bpow_le; lia].
  - rewrite E. apply Rlt_le_trans with (B 1000); [auto|apply bpow_le; lia].
  - rewrite E in *. pose proof u_pos. assert (K0 : 0 <= klen (map en pts)) by (apply pos_INR).
    assert (Kx : klen (map en pts) * u <= (n - 1) * u) by (apply Rmult_le_compat_r; lra).
    assert (X : (n - 1) * u <= / 2048) by (apply small_k; split; [lra|apply Rle_trans with (B 41); [lra|apply bpow_le; lia]]).
    split; auto. split.
    + apply Rle_trans with (fval t * (1 - klen (map en pts) * u)); [apply Rmult_le_compat_l; lra|exact Hu].
    + apply Rle_trans with (Tr * (1 - klen (map en pts) * u)); [apply Rmult_le_compat_l; lra|exact Hl].
Qed.
Lemma x_range : 0 <= (n - 1) * u <= / 2048.
Proof. pose proof n_range as [N1 N2]. apply small_k. split; [lra|]. apply Rle_trans with (B 41); [lra|apply bpow_le; lia]. Qed.

Lemma nonzero_dark p : In p (indices (nr a) (nc a)) -> negb (feq (en p) fzero) = false -> fval (en p) = 0.
Proof.
  intros I E. destruct (en_ok p I) as [F _]. rewrite feq_val in E by (auto; reflexivity). change (fval fzero) with 0 in E.
  destruct (Req_bool_spec (fval (en p)) 0); auto. discriminate.
Qed.
Lemma avg_err (idx : Z * Z -> Z) D : (forall p, In p (indices (nr a) (nc a)) -> (0 <= idx p <= D)%Z) -> (0 <= D <= 2 ^ 40)%Z ->
  let t := sm (map en (nonzero_f a)) in
  near (sm (map (fun p => fmul (fofZ (idx p)) (fdiv (en p) t)) (nonzero_f a)))
    (rsum2 (fun i j => IZR (idx (i, j)) * fval (at2 a i j)) (nr a) (nc a) / Tr) (IZR D * n * B (-51)).
Proof.
  intros Hi HD t. pose proof n_range as Hn. pose proof x_range as X. pose proof u_tiny as U. pose proof eta_tiny as Et.
  destruct (total_err (fun p => negb (feq (en p) fzero)) nonzero_dark) as (Ft & Hu & Hl). fold (nonzero_f a) in Ft, Hu, Hl.
  change (sm (map en (filter (fun p => negb (feq (en p) fzero)) (indices (nr a) (nc a))))) with t in Ft, Hu, Hl.
  assert (T0 : 0 < Tr) by (apply Ph).
  assert (In' : forall p, In p (nonzero_f a) -> In p (indices (nr a) (nc a))) by (intros p I; apply filter_In in I; tauto).
  assert (Dr : 0 <= IZR D <= B 40) by (split; [apply IZR_le; lia|]; change (B 40) with (IZR (2 ^ 40)); apply IZR_le; lia).
  assert (EL : lsum (fun p => IZR (idx p) * (fval (en p) / Tr)) (nonzero_f a) =
    rsum2 (fun i j => IZR (idx (i, j)) * fval (at2 a i j)) (nr a) (nc a) / Tr).
  { unfold nonzero_f. rewrite QuadNumP.lsum_filter. unfold Rdiv at 2. rewrite Rmult_comm, <- rsum2_scal, <- QuadNumP.lsum_indices.
    apply lsum_ext. intros [i j] I. cbn [fst snd]. change (at2 a i j) with (en (i, j)). destruct (negb (feq (en (i, j)) fzero)) eqn:E.
    - unfold Rdiv. ring.
    - rewrite (nonzero_dark _ I E). ring. }
  rewrite <- EL. apply (mean_err (nonzero_f a) (fun p => fmul (fofZ (idx p)) (fdiv (en p) t)) (fun p => IZR (idx p)) (fun p => fval (en p) / Tr)); auto.
  - unfold n. rewrite <- indices_length by (destruct Ph; lia). apply filter_len.
  - split; [lra|]. apply Rle_trans with (B 40); [lra|apply bpow_le; lia].
  - intros p Hp. apply In' in Hp. destruct (en_ok p Hp) as [Fe He]. pose proof (Hi p Hp) as Hip.
    destruct (weight_err (en p) t Tr _ Fe Ft He T0 X Hu Hl) as (Fw & Bw & Wu & Wl).
    set (w := fdiv (en p) t) in *. set (q := fval (en p) / Tr) in *.
    assert (C0 : 0 <= IZR (idx p)) by (apply IZR_le; lia).
    assert (Q0 : 0 <= q) by (apply Rmult_le_pos; [lra|apply Rlt_le, Rinv_0_lt_compat; auto]).
    destruct (fmul_within 40 1 (fofZ (idx p)) w ltac:(lia)) as [V [F _]].
    { apply fofZ_within; lia. }
    { split; auto. rewrite Rabs_right by lra. change (B 1) with 2. lra. }
    rewrite (proj1 (fofZ_spec (idx p) ltac:(lia))) in V. set (c := IZR (idx p)) in *.
    split; [exact C0|]. split; [exact Q0|]. split; [exact F|]. rewrite V. split; [apply rnd_nonneg; apply Rmult_le_pos; lra|].
    destruct (Z.eq_dec (idx p) 0) as [Z0|NZ].
    + assert (c = 0) by (unfold c; rewrite Z0; reflexivity). rewrite H, Rmult_0_l, rnd_0. lra.
    + assert (C1 : 1 <= c) by (apply IZR_le; lia).
      pose proof (rnd_err_rel (c * fval w)) as Er. rewrite (Rabs_right (c * fval w)) in Er by (apply Rle_ge, Rmult_le_pos; lra).
      apply Rabs_le_inv in Er. set (r := rnd64 (c * fval w)) in *. set (x := (n - 1) * u) in *.
      assert (Ec : eta <= c * eta) by nra. split.
      * assert (r <= c * fval w * (1 + u) + c * eta) by lra.
        apply Rle_trans with ((c * fval w * (1 + u) + c * eta) * (1 - x)); [apply Rmult_le_compat_r; lra|].
        assert (G : c * (fval w * (1 - x)) <= c * (q * (1 + u) + eta)) by (apply Rmult_le_compat_l; lra).
        assert (G2 : c * (fval w * (1 - x)) * (1 + u) <= c * (q * (1 + u) + eta) * (1 + u)) by (apply Rmult_le_compat_r; lra).
        assert (G3 : c * eta * (1 - x) <= c * eta) by (assert (0 <= c * eta) by (apply Rmult_le_pos; lra); nra).
        assert (G4 : c * eta * u <= c * eta) by (assert (0 <= c * eta) by (apply Rmult_le_pos; lra); nra). lra.
      * assert (c * fval w * (1 - u) - c * eta <= r) by lra.
        assert (G : c * (q * (1 - u) * (1 - x) - eta) <= c * fval w) by (apply Rmult_le_compat_l; lra).
        assert (G2 : c * (q * (1 - u) * (1 - x) - eta) * (1 - u) <= c * fval w * (1 - u)) by (apply Rmult_le_compat_r; lra).
        assert (G4 : 0 <= c * eta * u) by (apply Rmult_le_pos; [apply Rmult_le_pos|]; lra).
        assert (G5 : 0 <= c * eta) by (apply Rmult_le_pos; lra). lra.
  - rewrite EL. apply Rmult_le_reg_r with Tr; auto. unfold Rdiv. rewrite Rmult_assoc, Rinv_l, Rmult_1_r by lra.
    unfold Tr. rewrite <- rsum2_scal. apply rsum2_le. intros i j I J. destruct Ph as (_ & _ & _ & H & _). destruct (H i j) as [_ N]; [split; auto|].
    apply Rmult_le_compat_r; auto. apply IZR_le. apply (Hi (i, j)). apply in_indices. auto.
  - apply Rle_trans with (lsum (fun _ : Z * Z => IZR D) (nonzero_f a)).
    + apply lsum_le_in. intros p Hp. apply IZR_le, Hi, In'. auto.
    + assert (E : forall (l : list (Z * Z)), lsum (fun _ => IZR D) l = INR (List.length l) * IZR D).
      { induction l as [|p l IH]; [cbn; ring|]. cbn [lsum List.length]. rewrite IH, S_INR. ring. }
      rewrite E, Rmult_comm. apply Rmult_le_compat_l; [lra|]. unfold n. rewrite <- indices_length by (destruct Ph; lia). apply filter_len.
Qed.
Lemma center_err : near (fst (center_of_energy_f sm a)) (rsum2 (fun i j => IZR j * fval (at2 a i j)) (nr a) (nc a) / Tr) (IZR (nc a - 1) * n * B (-51)) /\
  near (snd (center_of_energy_f sm a)) (rsum2 (fun i j => IZR i * fval (at2 a i j)) (nr a) (nc a) / Tr) (IZR (nr a - 1) * n * B (-51)).
Proof.
  unfold center_of_energy_f. cbn [fst snd]. destruct Ph as (H1 & H2 & H3 & _). split.
  - apply (avg_err snd (nc a - 1)); [|nia]. intros p I. apply in_indices in I. lia.
  - apply (avg_err fst (nr a - 1)); [|nia]. intros p I. apply in_indices in I. lia.
Qed.
End Photo.
(** A single bright pixel. *)
Lemma center_point sm a i0 j0 : sums_up sm -> (nr a <= 2 ^ 50)%Z -> (nc a <= 2 ^ 50)%Z -> in_arr a i0 j0 ->
  is_finite (at2 a i0 j0) = true -> fval (at2 a i0 j0) <> 0 ->
  (forall i j, in_arr a i j -> (i, j) <> (i0, j0) -> is_finite (at2 a i j) = true /\ fval (at2 a i j) = 0) ->
  near (fst (center_of_energy_f sm a)) (IZR j0) 0 /\ near (snd (center_of_energy_f sm a)) (IZR i0) 0.
Proof.
  intros Hs S1 S2 I F N Dk.
  assert (E : nonzero_f a = [(i0, j0)]).
  { unfold nonzero_f.
    assert (Ef : forall p, In p (indices (nr a) (nc a)) -> negb (feq (at2 a (fst p) (snd p)) fzero) =
      if (fst p =? i0)%Z && (snd p =? j0)%Z then true else false).
    { intros [i j] Ip. apply in_indices in Ip. cbn [fst snd] in *.
      destruct (Z.eqb_spec i i0) as [->|Ni]; [destruct (Z.eqb_spec j j0) as [->|Nj]|]; cbn [andb].
      - rewrite feq_val by (auto; reflexivity). rewrite Req_bool_false by (change (fval fzero) with 0; exact N). reflexivity.
      - destruct (Dk i0 j) as [F0 V0]; [split; lia|congruence|]. rewrite feq_val by (auto; reflexivity). rewrite V0. rewrite Req_bool_true by reflexivity. reflexivity.
      - destruct (Dk i j) as [F0 V0]; [split; lia|congruence|]. rewrite feq_val by (auto; reflexivity). rewrite V0. rewrite Req_bool_true by reflexivity. reflexivity. }
    transitivity (filter (fun p => if (fst p =? i0)%Z && (snd p =? j0)%Z then true else false) (indices (nr a) (nc a)));
      [apply filter_ext_in; exact Ef|].
    assert (ND : NoDup (indices (nr a) (nc a))).
    { unfold indices, zrange. 
      assert (NZ : forall k, NoDup (map Z.of_nat (seq 0 k))) by (intros k; apply FinFun.Injective_map_NoDup; [intros x y; apply Nat2Z.inj|apply seq_NoDup]).
      pose proof (NZ (Z.to_nat (nr a))) as N1. pose proof (NZ (Z.to_nat (nc a))) as N2. revert N1 N2.
      generalize (map Z.of_nat (seq 0 (Z.to_nat (nr a)))) as l1. generalize (map Z.of_nat (seq 0 (Z.to_nat (nc a)))) as l2.
      intros l2 l1 N1 N2. induction N1 as [|x l Hx N1 IH]; cbn; [constructor|].
      assert (NA : forall (l m : list (Z * Z)), NoDup l -> NoDup m -> (forall y, In y l -> ~ In y m) -> NoDup (l ++ m)).
      { clear. induction 1 as [|y l Hy Nl IHl]; cbn; auto. intros Nm Dj. apply NoDup_cons.
        - rewrite in_app_iff. intros [G|G]; [tauto|]. apply (Dj y); auto.
        - apply IHl; auto. }
      apply NA; auto.
      - apply FinFun.Injective_map_NoDup; auto. intros y z Eyz. congruence.
      - intros y Iy Iz. apply in_map_iff in Iy as (z & <- & _). apply in_prod_iff in Iz. tauto. }
    assert (Ip : In (i0, j0) (indices (nr a) (nc a))) by (apply in_pts; auto).
    clear - ND Ip. revert Ip. generalize (indices (nr a) (nc a)) as l, ND. clear ND. intros l ND Ip.
    induction l as [|[i j] l IH]; [destruct Ip|]. inversion ND as [|? ? Nin ND']; subst. cbn [filter fst snd].
    destruct Ip as [Ep|Ip].
    - injection Ep as -> ->. rewrite !Z.eqb_refl. cbn [andb]. f_equal.
      assert (G : forall m : list (Z * Z), ~ In (i0, j0) m -> filter (fun p => if (fst p =? i0)%Z && (snd p =? j0)%Z then true else false) m = []).
      { clear. induction m as [|[i j] m IH]; cbn [filter fst snd]; auto. intros Hn. 
        destruct (Z.eqb_spec i i0) as [->|]; [destruct (Z.eqb_spec j j0) as [->|]|]; cbn [andb].
        - exfalso. apply Hn. left; auto.
        - apply IH. intros G. apply Hn. right; auto.
        - apply IH. intros G. apply Hn. right; auto. }
      apply G; auto.
    - assert (Nij : (i, j) <> (i0, j0)) by (intros E; apply Nin; rewrite E; auto).
      destruct (Z.eqb_spec i i0) as [->|]; [destruct (Z.eqb_spec j j0) as [->|]|]; cbn [andb]; try tauto; apply IH; auto. }
  destruct I as [Hi Hj]. set (e := at2 a i0 j0) in *.
  assert (Ec : center_of_energy_f sm a = (sm [fmul (fofZ j0) (fdiv e (sm [e]))], sm [fmul (fofZ i0) (fdiv e (sm [e]))]))
    by (unfold center_of_energy_f; rewrite E; reflexivity).
  rewrite Ec. cbn [fst snd]. rewrite (added_one e _ (Hs [e]) F N).
  assert (W : fval (fdiv e e) = 1 /\ is_finite (fdiv e e) = true).
  { assert (E1 : fval e / fval e = 1) by (field; auto).
    destruct (fdiv_spec e e F N) as [V Wf].
    - rewrite E1. apply rnd_small with 0%Z; [lia|]. rewrite Rabs_R1. change (B 0) with 1. lra.
    - rewrite E1, (rnd_IZR 1) in V by lia. auto. }
  destruct W as [Vw Fw].
  assert (G : forall k, (0 <= k < 2 ^ 50)%Z -> near (sm [fmul (fofZ k) (fdiv e e)]) (IZR k) 0).
  { intros k Hk. destruct (fmul_within 50 0 (fofZ k) (fdiv e e) ltac:(lia)) as [V [Fv _]].
    { apply fofZ_within; lia. }
    { split; auto. rewrite Vw, Rabs_R1. change (B 0) with 1. lra. }
    rewrite Vw, (proj1 (fofZ_spec k ltac:(lia))), Rmult_1_r, rnd_IZR in V by lia.
    set (v := fmul (fofZ k) (fdiv e e)) in *. destruct (sum_rel [v] _ (Hs [v])) as (Fs & Ns & Su & Sl).
    - intros y [<-|[]]. split; auto. rewrite V. apply IZR_le. lia.
    - unfold klen. cbn [List.length Nat.pred INR]. apply bpow_ge_0.
    - cbn [lsum]. rewrite V, Rplus_0_r. apply Rle_lt_trans with (IZR (2 ^ 50)); [apply IZR_le; lia|]. change (IZR (2 ^ 50)) with (B 50). apply bpow_lt. lia.
    - unfold klen in Su, Sl. cbn [List.length Nat.pred INR lsum] in Su, Sl. rewrite V in Su, Sl. split; auto.
      replace (fval (sm [v])) with (IZR k) by lra. rewrite Rminus_diag_eq, Rabs_R0 by reflexivity. lra. }
  split; apply G; lia.
Qed.

(** ** Quadrants *)
Lemma disc_test t n m x0 y0 r i j : grid_size t n m -> (0 <= i < n)%Z -> (0 <= j < m)%Z -> (0 <= x0 <= 2 ^ 23)%Z -> (0 <= y0 <= 2 ^ 23)%Z ->
  (Z.abs (j - x0) * 2 ^ t <= 2 ^ 23)%Z -> (Z.abs (i - y0) * 2 ^ t <= 2 ^ 23)%Z -> grid_length t r -> 0 <= fval r ->
  (fle (rho_f (from_origin_f m x0 j) (from_origin_f n y0 i)) r = true <-> in_disc x0 y0 (fval r) i j).
Proof.
  intros (Ht & Hn & Hn' & Hm & Hm') Hi Hj Hx Hy Bx By [Fr (z & Vr & Bz)] R0.
  pose proof (Z.pow_pos_nonneg 2 t ltac:(lia) ltac:(lia)) as Pt.
  assert (Sn : (n <= 2 ^ 23)%Z) by nia. assert (Sm : (m <= 2 ^ 23)%Z) by nia.
  destruct (from_origin_val m x0 j Hj ltac:(lia) ltac:(lia) ltac:(lia)) as [Vx Wx].
  destruct (from_origin_val n y0 i Hi ltac:(lia) ltac:(lia) ltac:(lia)) as [Vy Wy].
  destruct (rho_val _ _ (within_le 54 403 _ ltac:(lia) Wx) (within_le 54 403 _ ltac:(lia) Wy)) as [V [F _]].
  rewrite fle_true by auto. rewrite V, Vx, Vy, Vr.
  pose proof (pow2_pos t ltac:(lia)) as G.
  assert (Ex : IZR (j - x0) = IZR ((j - x0) * 2 ^ t) / IZR (2 ^ t)) by (rewrite mult_IZR; field; lra).
  assert (Ey : IZR (i - y0) = IZR ((i - y0) * 2 ^ t) / IZR (2 ^ t)) by (rewrite mult_IZR; field; lra).
  assert (Z0 : (0 <= z)%Z).
  { apply le_IZR. rewrite Vr in R0. apply Rmult_le_reg_r with (/ IZR (2 ^ t)); [apply Rinv_0_lt_compat; auto|]. unfold Rdiv in R0. lra. }
  unfold in_disc. rewrite Ex, Ey.
  assert (A1 : (Z.abs ((j - x0) * 2 ^ t) <= 2 ^ 24)%Z) by (rewrite Z.abs_mul, (Z.abs_eq (2 ^ t)) by lia; lia).
  assert (A2 : (Z.abs ((i - y0) * 2 ^ t) <= 2 ^ 24)%Z) by (rewrite Z.abs_mul, (Z.abs_eq (2 ^ t)) by lia; lia).
  set (p := ((j - x0) * 2 ^ t)%Z) in *. set (q := ((i - y0) * 2 ^ t)%Z) in *.
  rewrite dist_grid by auto. rewrite <- (proj1 (sq_grid t p q z ltac:(lia))).
  apply (proj1 (root_rnd (p * p + q * q) z t Ht ltac:(nia) ltac:(lia))).
Qed.
Section Quad.
Variables (sm : list f64 -> f64) (a : arr f64) (x0 y0 t : Z) (r : f64).
Hypothesis (Hs : sums_up sm) (Ph : photograph a) (Gs : grid_size t (nr a) (nc a)) (Gr : grid_length t r) (R0 : 0 <= fval r).
Hypothesis (Hx : (0 <= x0 < nr a)%Z) (Hy : (0 <= y0 < nc a)%Z).
Let Tr := rsum2 (fun i j => fval (at2 a i j)) (nr a) (nc a).
Let n := IZR (nr a * nc a).
Let en (p : Z * Z) := at2 a (fst p) (snd p).
Let T := sm (map en (indices (nr a) (nc a))).
Lemma disc_at i j : in_arr a i j -> fle (rho_f (from_origin_f (nc a) x0 j) (from_origin_f (nr a) y0 i)) r =
  Rleb (sqrt (IZR (j - x0) ^ 2 + IZR (i - y0) ^ 2)) (fval r).
Proof.
  intros [Hi Hj]. apply Bool.eq_iff_eq_true. rewrite (FitsP.disc_dec x0 y0 (fval r) i j R0).
  destruct Gs as (Ht & Hn & Hn' & Hm & Hm'). pose proof (Z.pow_pos_nonneg 2 t ltac:(lia) ltac:(lia)) as Pt.
  apply (disc_test t (nr a) (nc a)); auto; nia.
Qed.
Lemma count_err (sx sy : f64 -> bool) (sx' sy' : Z -> bool) :
  (forall j, (0 <= j < nc a)%Z -> sx (from_origin_f (nc a) x0 j) = sx' (j - x0)%Z) ->
  (forall i, (0 <= i < nr a)%Z -> sy (from_origin_f (nr a) y0 i) = sy' (i - y0)%Z) ->
  near (sm (map (fun p => fdiv (en p) T) (filter (fun p => sx (from_origin_f (nc a) x0 (snd p)) && sy (from_origin_f (nr a) y0 (fst p)) &&
      fle (rho_f (from_origin_f (nc a) x0 (snd p)) (from_origin_f (nr a) y0 (fst p))) r) (indices (nr a) (nc a)))))
    (rsum2 (fun i j => if sx' (j - x0)%Z && sy' (i - y0)%Z && Rleb (sqrt (IZR (j - x0) ^ 2 + IZR (i - y0) ^ 2)) (fval r)
                       then fval (at2 a i j) / Tr else 0) (nr a) (nc a)) (n * B (-51)) /\
  0 <= rsum2 (fun i j => if sx' (j - x0)%Z && sy' (i - y0)%Z && Rleb (sqrt (IZR (j - x0) ^ 2 + IZR (i - y0) ^ 2)) (fval r)
                       then fval (at2 a i j) / Tr else 0) (nr a) (nc a) <= 1.
Proof.
  intros Ex Ey. pose proof (n_range a Ph) as Hn. fold n in Hn. pose proof (x_range a Ph) as X. fold n in X. pose proof u_tiny as U. pose proof eta_tiny as Et.
  destruct (total_err sm a Hs Ph (fun _ => true)) as (Ft & Hu & Hl); [discriminate|].
  assert (Fid : filter (fun _ : Z * Z => true) (indices (nr a) (nc a)) = indices (nr a) (nc a)) by (generalize (indices (nr a) (nc a)); induction l; cbn; congruence).
  rewrite Fid in Ft, Hu, Hl. change (sm (map (fun p => at2 a (fst p) (snd p)) (indices (nr a) (nc a)))) with T in Ft, Hu, Hl.
  fold n Tr in Hu, Hl.
  assert (T0 : 0 < Tr) by (apply Ph).
  set (F := fun p : Z * Z => _ && _ && _).
  set (g := fun i j : Z => if _ && _ && _ then _ else 0).
  set (pts := filter F (indices (nr a) (nc a))).
  assert (In' : forall p, In p pts -> In p (indices (nr a) (nc a))) by (intros p I; apply filter_In in I; tauto).
  assert (EL : lsum (fun p => 1 * (fval (en p) / Tr)) pts = rsum2 g (nr a) (nc a)).
  { unfold pts. rewrite QuadNumP.lsum_filter, <- QuadNumP.lsum_indices. apply lsum_ext. intros [i j] I. apply in_indices in I. cbn [fst snd] in I |- *.
    unfold F, g. cbn [fst snd]. rewrite Ex, Ey, disc_at by (try split; lia). destruct (_ && _ && _); [|reflexivity]. rewrite Rmult_1_l. reflexivity. }
  assert (En : forall i j, in_arr a i j -> 0 <= fval (at2 a i j)) by (intros; apply Ph; auto).
  assert (Gb : 0 <= rsum2 g (nr a) (nc a) <= 1).
  { assert (Ti : 0 < / Tr) by (apply Rinv_0_lt_compat; auto). split.
    - apply rsum2_nonneg. intros i j Hi Hj. unfold g. destruct (_ && _ && _); [|lra]. apply Rmult_le_pos; [apply En; split; auto|lra].
    - replace 1 with (rsum2 (fun i j => / Tr * fval (at2 a i j)) (nr a) (nc a)) by (rewrite rsum2_scal; fold Tr; field; lra).
      apply rsum2_le. intros i j Hi Hj. pose proof (En i j (conj Hi Hj)). assert (0 <= / Tr * fval (at2 a i j)) by (apply Rmult_le_pos; lra).
      unfold g. destruct (_ && _ && _); [unfold Rdiv; lra|auto]. }
  split; [|exact Gb]. rewrite <- EL. replace (n * B (-51)) with (1 * n * B (-51)) by ring.
  assert (Lp : INR (List.length pts) <= n) by (unfold n; rewrite <- indices_length by (destruct Ph; lia); apply filter_len).
  apply (mean_err pts (fun p => fdiv (en p) T) (fun _ => 1) (fun p => fval (en p) / Tr)); auto.
  - split; [lra|]. change 1 with (B 0). apply bpow_le. lia.
  - intros p Hp. apply In' in Hp. destruct (en_ok a Ph p Hp) as [Fe He]. fold (en p) Tr in Fe, He.
    destruct (weight_err (en p) T Tr _ Fe Ft He T0 X Hu Hl) as (Fw & Bw & Wu & Wl).
    set (w := fdiv (en p) T) in *. set (q := fval (en p) / Tr) in *.
    assert (Q0 : 0 <= q) by (apply Rmult_le_pos; [lra|apply Rlt_le, Rinv_0_lt_compat; auto]).
    split; [lra|]. split; [exact Q0|]. split; [exact Fw|]. split; [lra|]. rewrite !Rmult_1_l, Rmult_1_r. split.
    + assert (q * (1 + u) <= q * ((1 + u) * (1 + u))) by (apply Rmult_le_compat_l; nra). lra.
    + assert (q * ((1 - u) * (1 - u)) * (1 - (n - 1) * u) <= q * (1 - u) * (1 - (n - 1) * u)) by (apply Rmult_le_compat_r; [lra|]; apply Rmult_le_compat_l; nra). lra.
  - rewrite EL. lra.
  - assert (E : forall (l : list (Z * Z)), lsum (fun _ => 1) l = INR (List.length l)).
    { induction l as [|p l IH]; [reflexivity|]. cbn [lsum List.length]. rewrite IH, S_INR. ring. }
    rewrite E, Rmult_1_l. exact Lp.
Qed.
Lemma combine_err q1 q2 q3 q4 v1 v2 v3 v4 : near q1 v1 (n * B (-51)) -> near q2 v2 (n * B (-51)) -> near q3 v3 (n * B (-51)) -> near q4 v4 (n * B (-51)) ->
  0 <= v1 <= 1 -> 0 <= v2 <= 1 -> 0 <= v3 <= 1 -> 0 <= v4 <= 1 ->
  near (fsub (fadd q1 q2) (fadd q3 q4)) (v1 + v2 - (v3 + v4)) (n * B (-48)).
Proof.
  intros [F1 E1] [F2 E2] [F3 E3] [F4 E4] H1 H2 H3 H4. pose proof (n_range a Ph) as Hn. fold n in Hn. pose proof u_tiny as U.
  assert (E51 : B (-51) = 4 * u) by (change (-51)%Z with (-53 + 2)%Z; rewrite bpow_plus; change (B 2) with 4; ring).
  assert (E48 : B (-48) = 32 * u) by (change (-48)%Z with (-53 + 5)%Z; rewrite bpow_plus; change (B 5) with 32; ring).
  rewrite E51 in *. rewrite E48. set (w := n * u) in *. replace (n * (4 * u)) with (4 * w) in * by (unfold w; ring). replace (n * (32 * u)) with (32 * w) by (unfold w; ring).
  assert (W : u <= w <= / 1000).
  { unfold w. split; [nra|]. apply Rle_trans with (B 41 * u); [apply Rmult_le_compat_r; [apply bpow_ge_0|lra]|]. rewrite <- bpow_plus. change (B (41 + -53)) with (/ 4096). lra. }
  apply Rabs_le_inv in E1, E2, E3, E4.
  assert (Wi : forall q v, is_finite q = true -> - (4 * w) <= fval q - v <= 4 * w -> 0 <= v <= 1 -> within 1 q).
  { intros q v Fq Eq Hv. split; auto. apply Rabs_le. change (B 1) with 2. lra. }
  assert (Ad : forall p q, within 1 p -> within 1 q -> Rabs (fval (fadd p q) - (fval p + fval q)) <= 4 * u /\ within 2 (fadd p q)).
  { intros p q Wp Wq. destruct (fadd_within 1 p q ltac:(lia) Wp Wq) as [V Wa]. split; [|exact Wa]. rewrite V. change 4 with (B 2). apply rnd_err; [lia|].
    destruct Wp as [_ Wp], Wq as [_ Wq]. eapply Rle_trans; [apply Rabs_triang|]. change (B 2) with 4. change (B 1) with 2 in Wp, Wq. lra. }
  destruct (Ad q1 q2) as [A1 W1]; [eapply Wi; eauto|eapply Wi; eauto|]. destruct (Ad q3 q4) as [A2 W2]; [eapply Wi; eauto|eapply Wi; eauto|].
  destruct (fsub_within 2 _ _ ltac:(lia) W1 W2) as [V [F _]]. split; [exact F|]. rewrite V.
  assert (Bd : Rabs (fval (fadd q1 q2) - fval (fadd q3 q4)) <= B 3).
  { destruct W1 as [_ W1], W2 as [_ W2]. change (B 2) with 4 in W1, W2. change (B 3) with 8. apply Rabs_le_inv in W1, W2. apply Rabs_le. lra. }
  pose proof (rnd_err _ 3 ltac:(lia) Bd) as E. change (B 3) with 8 in E. apply Rabs_le_inv in E, A1, A2. apply Rabs_le. lra.
Qed.
Lemma quad_err : exists bx by_ vx vy, quadrant_energy_balance_f sm a x0 y0 r = Ok (bx, by_) /\
  near bx vx (n * B (-48)) /\ near by_ vy (n * B (-48)) /\ Fits.quadrant_energy_balance (values a) x0 y0 (fval r) = Ok (vx, vy).
Proof.
  unfold quadrant_energy_balance_f, Fits.quadrant_energy_balance.
  destruct Gr as [Fr _].
  assert (Lr : flt r fzero = false) by (rewrite flt_val by (auto; reflexivity); apply Rlt_bool_false; exact R0).
  rewrite Lr, (proj2 (FitsP.Rleb_iff 0 (fval r)) R0). cbn [negb guard bind values amap nr nc at2].
  rewrite (proj2 (Z.leb_le 0 x0)), (proj2 (Z.leb_le 0 y0)), (proj2 (Z.ltb_lt x0 _)), (proj2 (Z.ltb_lt y0 _)) by lia. cbn [guard bind].
  do 4 eexists. split; [reflexivity|].
  assert (Gx : forall j, (0 <= j < nc a)%Z -> fle fzero (from_origin_f (nc a) x0 j) = (0 <=? j - x0)%Z /\ fle (from_origin_f (nc a) x0 j) fzero = (j - x0 <=? 0)%Z).
  { intros j Hj. destruct Gs as (Ht & Hn & Hn' & Hm & Hm'). pose proof (Z.pow_pos_nonneg 2 t ltac:(lia) ltac:(lia)) as Pt.
    destruct (from_origin_val (nc a) x0 j Hj ltac:(lia) ltac:(nia) ltac:(nia)) as [V [F _]]. rewrite !fle_val by (auto; reflexivity). rewrite V. change (fval fzero) with (IZR 0).
    split; [destruct (Z.leb_spec 0 (j - x0))|destruct (Z.leb_spec (j - x0) 0)]; try (apply Rle_bool_true, IZR_le; lia); apply Rle_bool_false, IZR_lt; lia. }
  assert (Gy : forall i, (0 <= i < nr a)%Z -> fle fzero (from_origin_f (nr a) y0 i) = (0 <=? i - y0)%Z /\ fle (from_origin_f (nr a) y0 i) fzero = (i - y0 <=? 0)%Z).
  { intros i Hi. destruct Gs as (Ht & Hn & Hn' & Hm & Hm'). pose proof (Z.pow_pos_nonneg 2 t ltac:(lia) ltac:(lia)) as Pt.
    destruct (from_origin_val (nr a) y0 i Hi ltac:(lia) ltac:(nia) ltac:(nia)) as [V [F _]]. rewrite !fle_val by (auto; reflexivity). rewrite V. change (fval fzero) with (IZR 0).
    split; [destruct (Z.leb_spec 0 (i - y0))|destruct (Z.leb_spec (i - y0) 0)]; try (apply Rle_bool_true, IZR_le; lia); apply Rle_bool_false, IZR_lt; lia. }
  destruct (count_err (fun v => fle fzero v) (fun v => fle fzero v) (fun z => 0 <=? z)%Z (fun z => 0 <=? z)%Z) as [C1 D1]; [intros; apply Gx; auto|intros; apply Gy; auto|].
  destruct (count_err (fun v => fle v fzero) (fun v => fle fzero v) (fun z => z <=? 0)%Z (fun z => 0 <=? z)%Z) as [C2 D2]; [intros; apply Gx; auto|intros; apply Gy; auto|].
  destruct (count_err (fun v => fle fzero v) (fun v => fle v fzero) (fun z => 0 <=? z)%Z (fun z => z <=? 0)%Z) as [C3 D3]; [intros; apply Gx; auto|intros; apply Gy; auto|].
  destruct (count_err (fun v => fle v fzero) (fun v => fle v fzero) (fun z => z <=? 0)%Z (fun z => z <=? 0)%Z) as [C4 D4]; [intros; apply Gx; auto|intros; apply Gy; auto|].
  split; [|split]; [| |reflexivity].
  - exact (combine_err _ _ _ _ _ _ _ _ C1 C3 C2 C4 D1 D3 D2 D4).
  - exact (combine_err _ _ _ _ _ _ _ _ C1 C2 C3 C4 D1 D2 D3 D4).
Qed.
End Quad.

(** ** Root mean square *)
Lemma rms_err sm l : sums_up sm -> l <> [] -> (Z.of_nat (List.length l) <= 2 ^ 40)%Z ->
  (forall v, In v l -> is_finite v = true /\ Rabs (fval v) <= B 400) ->
  let n := INR (List.length l) in
  let m := sqrt (lsum (fun v => fval v ^ 2) l / n) in
  near (rms_f sm l) m (m * (n * B (-50)) + B (-530)).
Proof.
  intros Hs Ne Hl Hv n m. pose proof u_tiny as U. pose proof eta_tiny as Et. pose proof u_pos as Up.
  set (N := Z.of_nat (List.length l)) in *.
  assert (En : n = IZR N) by (unfold n, N; rewrite INR_IZR_INZ; reflexivity).
  assert (N1 : (1 <= N)%Z) by (unfold N; destruct l; [tauto|cbn [List.length]; lia]).
  assert (n1 : 1 <= n <= B 40) by (rewrite En; split; [apply IZR_le; auto|]; change (B 40) with (IZR (2 ^ 40)); apply IZR_le; auto).
  set (S := lsum (fun v => fval v ^ 2) l) in *.
  assert (Sq : forall v, In v l -> is_finite (fmul v v) = true /\ 0 <= fval (fmul v v) /\
    fval v ^ 2 * (1 - u) - eta <= fval (fmul v v) <= fval v ^ 2 * (1 + u) + eta).
  { intros v Iv. destruct (Hv v Iv) as [F Bv]. destruct (fmul_within 400 400 v v ltac:(lia) (conj F Bv) (conj F Bv)) as [V [Fm _]].
    assert (E2 : fval v * fval v = fval v ^ 2) by ring. rewrite E2 in V. pose proof (rnd_err_rel (fval v ^ 2)) as Er.
    assert (P2 : 0 <= fval v ^ 2) by (rewrite <- E2; apply Rle_0_sqr). rewrite (Rabs_right (fval v ^ 2)) in Er by lra. apply Rabs_le_inv in Er.
    rewrite V. split; auto. split; [apply rnd_nonneg; auto|]. lra. }
  set (sq := map (fun v => fmul v v) l).
  assert (Ev : lsum fval sq = lsum (fun v => fval (fmul v v)) l) by (unfold sq; generalize l; induction l0; cbn; congruence).
  set (V := lsum (fun v => fval (fmul v v)) l) in *.
  assert (Vb : S * (1 - u) - n * eta <= V <= S * (1 + u) + n * eta).
  { unfold V, S, n. clear - Sq. induction l as [|v l IH]; [cbn; lra|]. cbn [lsum List.length]. rewrite S_INR.
    destruct (Sq v (or_introl eq_refl)) as (_ & _ & H). specialize (IH (fun w Hw => Sq w (or_intror Hw))). lra. }
  assert (S0 : 0 <= S) by (apply lsum_nonneg_in; intros; apply pow2_ge_0).
  assert (V0 : 0 <= V) by (apply lsum_nonneg_in; intros; apply Sq; auto).
  assert (Sb : S <= n * B 800).
  { unfold S, n. clear - Hv. induction l as [|v l IH]; [cbn; lra|]. cbn [lsum List.length]. rewrite S_INR.
    specialize (IH (fun w Hw => Hv w (or_intror Hw))). destruct (Hv v (or_introl eq_refl)) as [_ H].
    assert (fval v ^ 2 <= B 800); [|lra].
    rewrite <- (pow2_abs (fval v)). change (B 800) with (B (400 + 400)). rewrite bpow_plus. replace (Rabs (fval v) ^ 2) with (Rabs (fval v) * Rabs (fval v)) by ring.
    apply Rmult_le_compat; auto using Rabs_pos. }
  assert (nb : n * B 800 <= B 840) by (change 840%Z with (40 + 800)%Z; rewrite bpow_plus; apply Rmult_le_compat_r; [apply bpow_ge_0|lra]).
  assert (B1 : 1 <= B 840) by (change 1 with (B 0); apply bpow_le; lia).
  assert (ne : n * eta <= 1).
  { apply Rle_trans with (B 40 * eta); [apply Rmult_le_compat_r; lra|]. rewrite <- bpow_plus. change 1 with (B 0). apply bpow_le. lia. }
  assert (B842 : B 842 = 4 * B 840) by (change 842%Z with (840 + 2)%Z; rewrite bpow_plus; change (B 2) with 4; ring).
  assert (Vs : V <= B 842) by (assert (S * (1 + u) <= B 840 * 2) by (apply Rmult_le_compat; lra); lra).
  assert (Kl : klen sq = n - 1).
  { unfold klen, sq. rewrite map_length. unfold n.
    assert (G : forall k, (0 < k)%nat -> INR (Nat.pred k) = INR k - 1) by (intros [|k] Hk; [lia|]; cbn [Nat.pred]; rewrite S_INR; ring).
    apply G. unfold N in N1. lia. }
  destruct (sum_rel sq _ (Hs sq)) as (F & P & Hu & Hw).
  { intros w Iw. apply in_map_iff in Iw as (v & <- & Iv). destruct (Sq v Iv) as (A1 & A2 & _). auto. }
  { rewrite Kl. apply Rle_trans with (B 40); [lra|apply bpow_le; lia]. }
  { rewrite Ev. apply Rle_lt_trans with (B 842); auto. apply bpow_lt. lia. }
  rewrite Ev, Kl in *. set (x := (n - 1) * u) in *.
  assert (X : 0 <= x <= / 2048) by (apply small_k; split; [lra|apply Rle_trans with (B 40); [lra|apply bpow_le; lia]]).
  set (s := sm sq) in *.
  assert (sb : fval s <= B 843).
  { assert (B843 : B 843 = 2 * B 842) by (change 843%Z with (842 + 1)%Z; rewrite bpow_plus; change (B 1) with 2; ring).
    assert (fval s * / 2 <= fval s * (1 - x)) by (apply Rmult_le_compat_l; lra). lra. }
  destruct (fdiv_int_within 843 s N ltac:(lia)) as [Vm [Fm _]]; [split; auto; rewrite Rabs_right by lra; auto|lia|].
  set (md := fdiv s (fofZ N)) in *. rewrite <- En in Vm.
  set (M := S / n) in *.
  assert (ni : 0 < / n) by (apply Rinv_0_lt_compat; lra).
  assert (M0 : 0 <= M) by (apply Rmult_le_pos; lra).
  set (a := fval s / n) in *. assert (a0 : 0 <= a) by (apply Rmult_le_pos; lra).
  assert (au : a * (1 - x) <= M * (1 + u) + eta).
  { unfold a, M, Rdiv. replace (fval s * / n * (1 - x)) with (fval s * (1 - x) * / n) by ring.
    replace (S * / n * (1 + u) + eta) with ((S * (1 + u) + n * eta) * / n) by (field; lra). apply Rmult_le_compat_r; lra. }
  assert (al : (M * (1 - u) - eta) * (1 - x) <= a).
  { unfold a, M, Rdiv. replace ((S * / n * (1 - u) - eta) * (1 - x)) with ((S * (1 - u) - n * eta) * (1 - x) * / n) by (field; lra).
    apply Rmult_le_compat_r; [lra|]. apply Rle_trans with (V * (1 - x)); [apply Rmult_le_compat_r; lra|exact Hw]. }
  pose proof (rnd_err_rel a) as Er. rewrite (Rabs_right a) in Er by lra. rewrite <- Vm in Er. apply Rabs_le_inv in Er.
  assert (md0 : 0 <= fval md) by (rewrite Vm; apply rnd_nonneg; auto).
  set (g := fval md) in *. set (w := n * u).
  assert (Xw : x = w - u) by (unfold x, w; ring).
  assert (W : u <= w <= / 2048 + u) by lra.
  assert (E1 : Rabs (g - M) <= (4 * w) * M + 8 * eta).
  { apply Rabs_le. split.
    - assert (H1 : a * (1 - u) - eta <= g) by lra.
      assert (H2 : (M * (1 - u) - eta) * (1 - x) * (1 - u) <= a * (1 - u)) by (apply Rmult_le_compat_r; lra).
      assert (H3 : 1 - 2 * w <= (1 - u) * (1 - x) * (1 - u)) by (rewrite Xw; clear - W U; nra).
      assert (H4 : M * (1 - 2 * w) <= M * ((1 - u) * (1 - x) * (1 - u))) by (apply Rmult_le_compat_l; auto).
      assert (H5 : eta * ((1 - x) * (1 - u)) <= eta * 1) by (apply Rmult_le_compat_l; [lra|clear - X U; nra]).
      assert (H6 : 0 <= w * M) by (apply Rmult_le_pos; lra). lra.
    - assert (H1 : g <= a * (1 + u) + eta) by lra.
      assert (H2 : a * (1 - x) * (1 + u) <= (M * (1 + u) + eta) * (1 + u)) by (apply Rmult_le_compat_r; lra).
      assert (H3 : g * (1 - x) <= (a * (1 + u) + eta) * (1 - x)) by (apply Rmult_le_compat_r; lra).
      assert (H4 : (1 + u) * (1 + u) <= 1 + 2 * u + u * / 1000) by (clear - U; nra).
      assert (H5 : M * ((1 + u) * (1 + u)) <= M * (1 + 2 * u + u * / 1000)) by (apply Rmult_le_compat_l; auto).
      assert (H6 : eta * (1 - x) <= eta * 1) by (apply Rmult_le_compat_l; lra).
      assert (H7 : eta * (1 + u) <= eta * 2) by (apply Rmult_le_compat_l; lra).
      assert (H8 : (g - M) * (1 - x) <= M * (x + 2 * u + u * / 1000) + 3 * eta) by lra.
      assert (H9 : M * (x + 2 * u + u * / 1000) <= M * (w * (2 + / 1000))).
      { apply Rmult_le_compat_l; auto. rewrite Xw. lra. }
      assert (H10 : 0 <= w * M) by (apply Rmult_le_pos; lra).
      destruct (Rle_or_lt (g - M) 0) as [|Pos]; [lra|].
      assert ((g - M) * (1 - / 2048) <= (g - M) * (1 - x)) by (apply Rmult_le_compat_l; lra). lra. }
  assert (T2 : 8 * eta = (B (-536)) ^ 2).
  { replace (B (-536) ^ 2) with (B (-536) * B (-536)) by ring. rewrite <- bpow_plus. change (-536 + -536)%Z with (-1075 + 3)%Z. rewrite bpow_plus. change (B 3) with 8. ring. }
  rewrite T2 in E1.
  pose proof (sqrt_near M g (4 * w) (B (-536)) M0 md0 ltac:(lra) (bpow_ge_0 _ _) E1) as E2.
  destruct (fsqrt_within 500 md ltac:(lia)) as [Vr [Fr _]].
  { split; auto. rewrite Rabs_right by (apply Rle_ge; exact md0). fold g. apply Rle_trans with (B 843 + 1); [|apply Rle_trans with (B 844); [|apply bpow_le; lia]].
    - assert (a <= B 843) by (unfold a, Rdiv; apply Rle_trans with (fval s * 1); [apply Rmult_le_compat_l; [lra|]; apply Rmult_le_reg_r with n; [lra|]; rewrite Rinv_l by lra; lra|lra]).
      assert (g <= B 843); [|lra]. pose proof (rnd_bpow_le a 843 ltac:(lia) ltac:(rewrite Rabs_right; lra)) as Hb. rewrite <- Vm in Hb. fold g in Hb. apply Rabs_le_inv in Hb. lra.
    - assert (B 844 = 2 * B 843) by (change 844%Z with (843 + 1)%Z; rewrite bpow_plus; change (B 1) with 2; ring).
      assert (1 <= B 843) by (change 1 with (B 0); apply bpow_le; lia). lra. }
  { exact md0. }
  fold g in Vr. fold m in E2. split; [exact Fr|]. change (rms_f sm l) with (fsqrt md). rewrite Vr.
  pose proof (rnd_err_rel (sqrt g)) as E3. rewrite (Rabs_right (sqrt g)) in E3 by (apply Rle_ge, sqrt_pos).
  assert (m0 : 0 <= m) by apply sqrt_pos. pose proof (sqrt_pos g) as g0.
  assert (E50 : B (-50) = 8 * u) by (change (-50)%Z with (-53 + 3)%Z; rewrite bpow_plus; change (B 3) with 8; ring).
  rewrite E50. replace (m * (n * (8 * u))) with (8 * (w * m)) by (unfold w; ring).
  assert (E530 : B (-530) = 64 * B (-536)) by (change (-530)%Z with (-536 + 6)%Z; rewrite bpow_plus; change (B 6) with 64; ring).
  assert (Ee : eta <= B (-536)) by (apply bpow_le; lia).
  rewrite E530. apply Rabs_le_inv in E2, E3.
  assert (um : u * m <= w * m) by (apply Rmult_le_compat_r; lra). assert (wm : 0 <= w * m) by (apply Rmult_le_pos; lra).
  assert (ug : u * sqrt g <= 2 * (w * m) + B (-536)).
  { assert (sqrt g <= m * (1 + 4 * w) + B (-536)) by lra. assert (u * sqrt g <= u * (m * (1 + 4 * w) + B (-536))) by (apply Rmult_le_compat_l; lra).
    assert (u * (4 * w) <= u * / 100) by (apply Rmult_le_compat_l; lra).
    assert (B (-536) * u <= B (-536) * 1) by (apply Rmult_le_compat_l; [apply bpow_ge_0|lra]).
    assert (m * (u * (4 * w)) <= m * (u * / 100)) by (apply Rmult_le_compat_l; auto).
    lra. }
  apply Rabs_le. lra.
Qed.
