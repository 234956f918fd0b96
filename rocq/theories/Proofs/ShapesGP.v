(** The antialiased shapes in binary64: pixels and grids. *)
From Coq Require Import ZArith Reals Bool List Lia Lra.
From Flocq Require Import Core BinarySingleNaN.
From Verif.Base Require Import Py Arr Sums F64.
From Verif.Model Require Import ShapesF ShapesG.
From Verif.Spec Require Import ShapesFSpec ShapesGSpec.
From Verif.Proofs Require Import F64P F64N ShapesFP ShapesFQ.
Local Open Scope R_scope.
Local Notation B := (bpow radix2).
Local Notation neg := opposite.

(** ** Pixels lie between 0 and 1 *)
Definition unit_f (v : f64) : Prop := is_finite v = true /\ 0 <= fval v <= 1.
Lemma gray_count inside up ns x y :
  gray_f inside up ns x y = fdiv (fofZ (zcount (fun p q => inside (fadd (up q) x) (fadd (up p) y)) ns)) (fofZ (ns * ns)).
Proof. reflexivity. Qed.
Lemma gray_unit inside up ns x y : (1 <= ns <= 2 ^ 26)%Z -> unit_f (gray_f inside up ns x y).
Proof.
  intros H. rewrite gray_count. pose proof (zcount_range (fun p q => inside (fadd (up q) x) (fadd (up p) y)) ns ltac:(lia)) as C.
  destruct (frac_val _ ns H C) as [V F]. split; auto. rewrite V. apply frac_range; auto.
Qed.
Lemma edge_unit one zero inside up ns x y : (1 <= ns <= 2 ^ 26)%Z -> unit_f (edge_f one zero inside up ns x y).
Proof.
  intros H. unfold edge_f. destruct (zero x y); [split; [reflexivity|cbn; lra]|]. destruct (one x y); [|apply gray_unit, H].
  destruct (fofZ_spec 1 ltac:(lia)) as [V F]. split; auto. rewrite V. lra.
Qed.
Lemma dark_unit d v : unit_f v -> unit_f (dark_f d v).
Proof.
  intros [F H]. destruct d; [|split; auto]. change (unit_f (fsub (fofZ 1) v)). destruct (dark_val v F H) as [V F']. split; auto. rewrite V. apply rnd_unit, H.
Qed.
Lemma mul_unit x y : unit_f x -> unit_f y -> unit_f (fmul x y) /\ fval (fmul x y) <= fval x /\ fval (fmul x y) <= fval y.
Proof.
  intros [Fx Hx] [Fy Hy]. destruct (fmul_within 0 0 x y ltac:(lia)) as [V [F _]].
  - split; auto. rewrite Rabs_pos_eq; cbn; lra.
  - split; auto. rewrite Rabs_pos_eq; cbn; lra.
  - assert (A : rnd64 (fval x * fval y) <= fval x) by (rewrite <- (rnd_id (fval x) (fval_format x)) at 2; apply rnd_mono; nra).
    assert (C : rnd64 (fval x * fval y) <= fval y) by (rewrite <- (rnd_id (fval y) (fval_format y)) at 2; apply rnd_mono; nra).
    split; [split; [exact F|]|]; rewrite V; [|auto]. split; [apply rnd_nonneg; nra|lra].
Qed.

(** ** Signs *)
Lemma sign_neg x : fval x < 0 -> Bsign x = true.
Proof.
  destruct x as [s|s| |s m e H]; unfold fval; cbn [B2R Bsign]; try lra. intros L. destruct s; auto. exfalso.
  assert (0 < F2R (Float radix2 (cond_Zopp false (Zpos m)) e)) by (apply F2R_gt_0; reflexivity). lra.
Qed.
Lemma sign_pos x : 0 < fval x -> Bsign x = false.
Proof.
  destruct x as [s|s| |s m e H]; unfold fval; cbn [B2R Bsign]; try lra. intros L. destruct s; auto. exfalso.
  assert (F2R (Float radix2 (cond_Zopp true (Zpos m)) e) < 0) by (apply F2R_lt_0; reflexivity). lra.
Qed.
Lemma fofZ_sign z : (Z.abs z <= 2 ^ 53)%Z -> (0 <= z)%Z -> Bsign (fofZ z) = false.
Proof.
  intros H P. destruct (Z.eq_dec z 0) as [->|N]; [reflexivity|]. apply sign_pos. rewrite (proj1 (fofZ_spec z H)). apply IZR_lt. lia.
Qed.
Lemma is_fofZ x z : (Z.abs z <= 2 ^ 53)%Z -> is_finite x = true -> fval x = IZR z -> (z = 0%Z -> Bsign x = false) -> x = fofZ z.
Proof.
  intros H F V S. destruct (fofZ_spec z H) as [V' F']. destruct (Z.eq_dec z 0) as [->|N].
  - destruct (fin_val_zero x F V) as [s ->]. specialize (S eq_refl). cbn in S. subst s. reflexivity.
  - apply fin_eq; auto; [congruence|]. rewrite V. apply not_0_IZR, N.
Qed.
Lemma fadd_cancel_sign x y : is_finite x = true -> is_finite y = true -> fval x = - fval y -> fval y <> 0 -> Bsign (fadd x y) = false.
Proof.
  intros Fx Fy E N. pose proof (Bplus_correct prec emax Hprec Hmax mode_NE x y Fx Fy) as C.
  fold (fval x) (fval y) in C. rewrite E in C. replace (- fval y + fval y) with 0 in C by ring.
  cbn [round_mode] in C. change (SpecFloat.fexp prec emax) with flt_exp in C. rewrite rnd_0, Rabs_R0, Rlt_bool_true in C by apply bpow_gt_0.
  destruct C as (_ & _ & C). unfold fadd. rewrite C, Rcompare_Eq by reflexivity.
  destruct (Rlt_or_le (fval y) 0) as [L|L].
  - rewrite (sign_pos x) by lra. reflexivity.
  - rewrite (sign_pos y) by lra. apply andb_false_r.
Qed.
Lemma fsub_cancel_sign x y : is_finite x = true -> is_finite y = true -> fval x = fval y -> (fval x = 0 -> Bsign x = false) -> Bsign (fsub x y) = false.
Proof.
  intros Fx Fy E S. destruct (Req_dec (fval y) 0) as [Z|Z].
  - rewrite <- E in Z. specialize (S Z). destruct (fin_val_zero x Fx Z) as [s ->]. rewrite E in Z. destruct (fin_val_zero y Fy Z) as [s' ->].
    cbn in S. subst s. destruct s'; reflexivity.
  - rewrite fsub_add. apply fadd_cancel_sign; rewrite ?fin_opp, ?fval_opp; auto; lra.
Qed.
Lemma half_sign z : (0 <= z <= 2 ^ 50)%Z -> Bsign (fdiv (fofZ z) (fofZ 2)) = false.
Proof.
  intros H. destruct (Z.eq_dec z 0) as [->|N]; [reflexivity|]. apply sign_pos. destruct (half_within z ltac:(lia)) as [V _].
  rewrite V. assert (0 < IZR z) by (apply IZR_lt; lia). lra.
Qed.
Lemma linspace_sign a b A n i : within 51 a -> within 51 b -> fval a = IZR A / 2 -> fval b = IZR A / 2 + IZR (n - 1) ->
  (Z.abs A <= 2 ^ 51)%Z -> (0 <= i < n)%Z -> (1 < n <= 2 ^ 50)%Z -> (A <> 0)%Z -> (fval b = 0 -> Bsign b = false) ->
  fval (linspace_f a b n i) = 0 -> Bsign (linspace_f a b n i) = false.
Proof.
  intros Wa Wb Va Vb HA Hi Hn NA Sb H. destruct (linspace_unit a b A n i Wa Wb Va Vb HA Hi ltac:(lia)) as [V _]. rewrite H in V.
  unfold linspace_f. destruct (Z.eqb_spec n 1) as [E|E]; [lia|]. destruct (Z.eqb_spec i (n - 1)) as [E2|E2].
  - apply Sb. rewrite Vb, <- E2. lra.
  - cbv zeta. destruct (fsub_within 51 b a ltac:(lia) Wb Wa) as [Vd Wd].
    replace (fval b - fval a) with (IZR (n - 1)) in Vd by (rewrite Va, Vb; ring). rewrite rnd_IZR in Vd by lia.
    destruct (fdiv_int_within 52 (fsub b a) (n - 1) ltac:(lia) Wd ltac:(lia)) as [Vs Ws].
    assert (Pn : IZR (n - 1) <> 0) by (apply not_0_IZR; lia).
    rewrite Vd in Vs. replace (IZR (n - 1) / IZR (n - 1)) with 1 in Vs by (field; auto).
    rewrite (rnd_IZR 1) in Vs by lia.
    rewrite feq_val; [|apply Ws|reflexivity]. rewrite Vs. change (fval fzero) with 0.
    rewrite Req_bool_false by lra.
    destruct (fofZ_spec i ltac:(lia)) as [Vi Fi].
    assert (W1 : within 0 (fdiv (fsub b a) (fofZ (n - 1)))) by (split; [apply Ws|rewrite Vs, Rabs_R1; cbn; lra]).
    destruct (fmul_within 51 0 (fofZ i) _ ltac:(lia) (fofZ_within 51 i ltac:(lia) ltac:(lia)) W1) as [Vm Wm].
    rewrite Vi, Vs, Rmult_1_r, rnd_IZR in Vm by lia.
    apply fadd_cancel_sign; [apply Wm|apply Wa|rewrite Vm, Va; lra|].
    rewrite Va. assert (IZR A <> 0) by (apply not_0_IZR; exact NA). lra.
Qed.
Lemma whole_within x a : whole x a -> within 400 x.
Proof.
  intros (F & V & H). split; auto. rewrite V, <- abs_IZR. apply Rle_trans with (B 50); [|apply bpow_le; lia].
  rewrite <- (IZR_Zpower radix2) by lia. apply IZR_le, H.
Qed.
Lemma shift_bound n a i : (0 <= i < n)%Z -> (n <= 2 ^ 50)%Z -> (Z.abs a <= 2 ^ 50)%Z -> (Z.abs (shift_from n a i) <= 2 ^ 52)%Z.
Proof.
  intros Hi Hn Ha. unfold shift_from. assert (0 <= n / 2 <= n)%Z by (split; [apply Z.div_pos; lia|apply Z.div_le_upper_bound; lia]). lia.
Qed.
(** With a whole offset the coordinates are the integers, and zero is the positive one. *)
Lemma axis_whole n off a i : (0 <= i < n)%Z -> (n <= 2 ^ 50)%Z -> whole off a -> axis_f n off i = fofZ (shift_from n a i).
Proof.
  intros Hi Hn Ho. pose proof (whole_within _ _ Ho) as Wo. destruct Ho as (Fo & Vo & Ha).
  destruct (axis_val n off i Hi Hn Wo) as [V [F _]]. pose proof (shift_bound n a i Hi Hn Ha) as Hs.
  change (rnd64 (IZR (i - n / 2) - fval off)) with (col n (fval off) i) in V. rewrite Vo, col_whole in V by lia.
  apply is_fofZ; auto; [lia|]. intros Hz. clear V F.
  unfold axis_f. destruct (Z.even n) eqn:E.
  - assert (En : (n = 2 * (n / 2))%Z) by (apply Z.even_spec in E; destruct E as [k ->]; rewrite Z.mul_comm, Z.div_mul by lia; lia).
    destruct (half_within (- n) ltac:(lia)) as [Va Wa]. destruct (half_within n ltac:(lia)) as [Vb Wb].
    assert (W50 : within 50 (fdiv (fofZ n) (fofZ 2))).
    { split; [apply Wb|]. rewrite Vb, Rabs_right by (apply Rle_ge; apply Rmult_le_pos; [apply IZR_le; lia|lra]).
      apply Rle_trans with (IZR n); [pose proof (IZR_le 0 n ltac:(lia)); lra|].
      rewrite <- (IZR_Zpower radix2) by lia. apply IZR_le. exact Hn. }
    destruct (fsub_within 50 _ (fofZ 1) ltac:(lia) W50 (fofZ_within 50 1 ltac:(lia) ltac:(lia))) as [Vc Wc].
    destruct (fofZ_spec 1 ltac:(lia)) as [V1 F1]. rewrite Vb, V1 in Vc.
    replace (IZR n / 2 - 1) with (IZR (n - 2) / 2) in Vc by (rewrite minus_IZR; field). rewrite rnd_half in Vc by lia.
    assert (Vc' : fval (fsub (fdiv (fofZ n) (fofZ 2)) (fofZ 1)) = IZR (- n) / 2 + IZR (n - 1)) by (rewrite Vc, !minus_IZR, opp_IZR; field).
    destruct (linspace_unit _ _ (- n) n i Wa Wc Va Vc' ltac:(lia) Hi Hn) as [V W].
    apply fsub_cancel_sign; [apply W|exact Fo| |].
    + rewrite V, Vo, opp_IZR. unfold shift_from in Hz. assert (a = i - n / 2)%Z as -> by lia. rewrite minus_IZR.
      assert (IZR n = 2 * IZR (n / 2)) by (rewrite <- mult_IZR; f_equal; exact En). lra.
    + apply (linspace_sign _ _ (- n) n i Wa Wc Va Vc'); try lia. intros Hb. apply fsub_cancel_sign; [apply Wb|exact F1| |].
      * rewrite Vb, V1. rewrite Vc in Hb. rewrite minus_IZR in Hb. lra.
      * intros _. apply half_sign. lia.
  - assert (En : (n - 1 = 2 * (n / 2))%Z).
    { rewrite <- Z.negb_odd in E. apply negb_false_iff, Z.odd_spec in E. destruct E as [k ->].
      replace (2 * k + 1)%Z with (1 + k * 2)%Z by lia. rewrite Z.div_add by lia. change (1 / 2)%Z with 0%Z. lia. }
    destruct (half_within (- (n - 1)) ltac:(lia)) as [Va Wa]. destruct (half_within (n - 1) ltac:(lia)) as [Vb Wb].
    assert (Vb' : fval (fdiv (fofZ (n - 1)) (fofZ 2)) = IZR (- (n - 1)) / 2 + IZR (n - 1)) by (rewrite Vb, opp_IZR; field).
    destruct (linspace_unit _ _ (- (n - 1)) n i Wa Wb Va Vb' ltac:(lia) Hi Hn) as [V W].
    apply fsub_cancel_sign; [apply W|exact Fo| |].
    + rewrite V, Vo, opp_IZR. unfold shift_from in Hz. assert (a = i - n / 2)%Z as -> by lia. rewrite (minus_IZR i).
      assert (IZR (n - 1) = 2 * IZR (n / 2)) by (rewrite <- mult_IZR; f_equal; exact En). lra.
    + destruct (Z.eq_dec n 1) as [->|N1].
      * assert (i = 0%Z) as -> by lia. intros _. reflexivity.
      * apply (linspace_sign _ _ (- (n - 1)) n i Wa Wb Va Vb'); try lia. intros _. apply half_sign. lia.
Qed.
Lemma dx_whole n off a : (1 < n <= 2 ^ 50)%Z -> whole off a -> fsub (axis_f n off 1) (axis_f n off 0) = fofZ 1.
Proof.
  intros Hn Ho. rewrite !(axis_whole n off a) by (auto; lia). destruct Ho as (_ & _ & Ha).
  pose proof (shift_bound n a 0 ltac:(lia) ltac:(lia) Ha). assert (E : shift_from n a 1 = (shift_from n a 0 + 1)%Z) by (unfold shift_from; lia). rewrite E.
  set (s := shift_from n a 0) in *. destruct (fofZ_spec s ltac:(lia)) as [V F]. destruct (fofZ_spec (s + 1) ltac:(lia)) as [V' F'].
  destruct (fsub_within 53 (fofZ (s + 1)) (fofZ s) ltac:(lia) (fofZ_within 53 (s + 1) ltac:(lia) ltac:(lia)) (fofZ_within 53 s ltac:(lia) ltac:(lia))) as [Vd [Fd _]].
  rewrite V, V', <- minus_IZR in Vd. replace (s + 1 - s)%Z with 1%Z in Vd by lia. rewrite (rnd_IZR 1) in Vd by lia.
  apply is_fofZ; auto; lia.
Qed.
Lemma fofZ_neg z : (Z.abs z <= 2 ^ 53)%Z -> neg (fofZ z) (fofZ (- z)).
Proof.
  intros H. destruct (fofZ_spec z H) as [V F]. destruct (fofZ_spec (- z) ltac:(lia)) as [V' F']. apply fin_neg; auto. rewrite V, V', opp_IZR. reflexivity.
Qed.
Lemma xUp_neg ns q : (0 <= q < ns)%Z -> (ns <= 2 ^ 50)%Z -> neg (xUp_f ns q) (xUp_f ns (ns - 1 - q)).
Proof.
  intros Hq Hn. destruct (xUp_val ns q Hq Hn) as [V [F _]]. destruct (xUp_val ns (ns - 1 - q) ltac:(lia) Hn) as [V' [F' _]].
  apply fin_neg; auto. rewrite V, V', up_rev. reflexivity.
Qed.
