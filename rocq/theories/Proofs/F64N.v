(** Doubles that are opposite up to the sign of zero. *)
From Coq Require Import ZArith Reals Bool Lia Lra.
From Flocq Require Import Core BinarySingleNaN.
From Verif.Base Require Import F64.
From Verif.Spec Require Import ShapesGSpec.
From Verif.Proofs Require Import F64P.
Local Open Scope R_scope.
Local Notation B := (bpow radix2).

Local Notation iszero := is_zero.
Local Notation neg := opposite.

Lemma neg_opp x : neg x (fopp x). Proof. left. reflexivity. Qed.
Lemma fopp_invol x : fopp (fopp x) = x.
Proof. unfold fopp. destruct x as [s|s| |s m e Hb]; cbn; rewrite ?negb_involutive; reflexivity. Qed.
Lemma neg_sym x y : neg x y -> neg y x.
Proof. intros [-> | [A C]]; [left; symmetry; apply fopp_invol|right; auto]. Qed.
Lemma neg_zero s s' : neg (B754_zero s) (B754_zero s').
Proof. right. split; eexists; reflexivity. Qed.
Lemma fin_val_zero x : is_finite x = true -> fval x = 0 -> iszero x.
Proof.
  destruct x as [s|s| |s m e Hb]; try discriminate; intros _ H; [eexists; reflexivity|exfalso].
  unfold fval, B2R in H. assert (F2R (Float radix2 (cond_Zopp s (Zpos m)) e) <> 0); [|auto].
  apply F2R_neq_0. cbn. destruct s; discriminate.
Qed.
Lemma fin_eq x y : is_finite x = true -> is_finite y = true -> fval x = fval y -> fval x <> 0 -> x = y.
Proof.
  intros Fx Fy E N. apply B2R_inj; auto; apply is_finite_strict_B2R; auto. fold (fval y). rewrite <- E. exact N.
Qed.
Lemma fval_opp x : fval (fopp x) = - fval x.
Proof. apply B2R_Bopp. Qed.
Lemma fin_opp x : is_finite (fopp x) = is_finite x.
Proof. apply is_finite_Bopp. Qed.
Lemma fin_neg x y : is_finite x = true -> is_finite y = true -> fval y = - fval x -> neg x y.
Proof.
  intros Fx Fy E. destruct (Req_dec (fval x) 0) as [Z|Z].
  - right. split; apply fin_val_zero; auto. rewrite E, Z. ring.
  - left. apply fin_eq; auto; rewrite ?fin_opp, ?fval_opp; auto. lra.
Qed.
Lemma neg_val x y : neg x y -> fval y = - fval x.
Proof. intros [-> | [[s ->] [s' ->]]]; [apply fval_opp|cbn; lra]. Qed.
Lemma neg_fin x y : neg x y -> is_finite y = is_finite x.
Proof. intros [-> | [[s ->] [s' ->]]]; [apply fin_opp|reflexivity]. Qed.
Lemma neg_nonfin x y : neg x y -> is_finite x = false -> y = fopp x.
Proof. intros [-> | [[s ->] _]]; [auto|discriminate]. Qed.
Lemma sf_opp (x y : f64) : B2SF y = SpecFloat.SFopp (B2SF x) -> y = fopp x.
Proof. intros E. apply B2SF_inj. rewrite E. unfold fopp. destruct x; reflexivity. Qed.
Lemma sf_overflow s : SpecFloat.SFopp (binary_overflow prec emax mode_NE s) = binary_overflow prec emax mode_NE (negb s).
Proof. reflexivity. Qed.
Lemma round_opp_lt x : Rlt_bool (Rabs (rnd64 (- x))) (B 1024) = Rlt_bool (Rabs (rnd64 x)) (B 1024).
Proof. rewrite rnd_opp, Rabs_Ropp. reflexivity. Qed.

Lemma sign_opp x y : neg x y -> fval x <> 0 -> Bsign y = negb (Bsign x).
Proof. intros [-> | [[s ->] _]] H; [apply Bsign_Bopp; destruct x; auto; cbn in H; lra|cbn in H; lra]. Qed.

Lemma fadd_neg x y x' y' : neg x x' -> neg y y' -> neg (fadd x y) (fadd x' y').
Proof.
  intros Nx Ny. pose proof (neg_fin _ _ Nx) as Fx'. pose proof (neg_fin _ _ Ny) as Fy'.
  destruct (is_finite x) eqn:Fx; [destruct (is_finite y) eqn:Fy|].
  - pose proof (Bplus_correct prec emax Hprec Hmax mode_NE x y Fx Fy) as C.
    pose proof (Bplus_correct prec emax Hprec Hmax mode_NE x' y' Fx' Fy') as C'.
    fold (fval x) (fval y) in C. fold (fval x') (fval y') in C'. rewrite (neg_val _ _ Nx), (neg_val _ _ Ny) in C'.
    replace (- fval x + - fval y) with (- (fval x + fval y)) in C' by ring.
    cbn [round_mode] in C, C'. change (SpecFloat.fexp prec emax) with flt_exp in C, C'. change (bpow radix2 emax) with (B 1024) in C, C'. rewrite round_opp_lt in C'.
    destruct (Rlt_bool_spec (Rabs (rnd64 (fval x + fval y))) (B 1024)) as [L|L].
    + destruct C as (C1 & C2 & _). destruct C' as (C1' & C2' & _). apply fin_neg; auto. unfold fval, fadd. rewrite C1, C1'. apply rnd_opp.
    + destruct C as (C1 & S). destruct C' as (C1' & S'). left. apply sf_opp. unfold fadd. rewrite C1, C1', sf_overflow.
      f_equal. destruct (Req_dec (fval x) 0) as [Z|Z]; [|apply sign_opp; auto].
      exfalso. rewrite Z, Rplus_0_l, (rnd_id _ (fval_format y)) in *. pose proof (fval_bound y). lra.
  - rewrite (neg_nonfin _ _ Ny Fy). left. destruct x as [sx|sx| |sx mx ex Hx]; try discriminate; destruct y as [sy|sy| |sy my ey Hy]; try discriminate;
      destruct Nx as [-> | [[s E] [s' ->]]]; reflexivity.
  - rewrite (neg_nonfin _ _ Nx Fx). left. destruct x as [sx|sx| |sx mx ex Hx]; try discriminate; destruct y as [sy|sy| |sy my ey Hy];
      destruct Ny as [-> | [[s E] [s' ->]]]; try discriminate; try reflexivity; destruct sx, sy; reflexivity.
Qed.
Lemma fsub_add x y : fsub x y = fadd x (fopp y).
Proof. destruct x as [sx|sx| |sx mx ex Hx], y as [sy|sy| |sy my ey Hy]; reflexivity. Qed.
Lemma opp_neg x y : neg x y -> neg (fopp x) (fopp y).
Proof. intros [-> | [[s ->] [s' ->]]]; [left; reflexivity|apply neg_zero]. Qed.
Lemma fsub_neg x y x' y' : neg x x' -> neg y y' -> neg (fsub x y) (fsub x' y').
Proof. intros. rewrite !fsub_add. apply fadd_neg; auto. apply opp_neg; auto. Qed.

Lemma fmul_opp x y : fmul x (fopp y) = fopp (fmul x y).
Proof.
  destruct (is_finite x) eqn:Fx; [destruct (is_finite y) eqn:Fy|].
  - pose proof (Bmult_correct prec emax Hprec Hmax mode_NE x y) as C.
    pose proof (Bmult_correct prec emax Hprec Hmax mode_NE x (fopp y)) as C'.
    fold (fval x) (fval y) in C. fold (fval x) (fval (fopp y)) in C'. rewrite fval_opp in C'.
    replace (fval x * - fval y) with (- (fval x * fval y)) in C' by ring.
    cbn [round_mode] in C, C'. change (SpecFloat.fexp prec emax) with flt_exp in C, C'. change (bpow radix2 emax) with (B 1024) in C, C'. rewrite round_opp_lt in C'.
    assert (Sy : Bsign (fopp y) = negb (Bsign y)) by (apply Bsign_Bopp; destruct y; auto; discriminate).
    destruct (Rlt_bool (Rabs (rnd64 (fval x * fval y))) (B 1024)).
    + destruct C as (C1 & C2 & C3). destruct C' as (C1' & C2' & C3'). rewrite Fx, Fy in C2. rewrite fin_opp, Fx, Fy in C2'.
      cbn [andb] in C2, C2'.
      assert (N : is_nan (fmul x y) = false) by (unfold fmul; destruct (Bmult mode_NE x y); auto; discriminate).
      assert (N' : is_nan (fmul x (fopp y)) = false) by (unfold fmul; destruct (Bmult mode_NE x (fopp y)); auto; discriminate).
      apply B2R_Bsign_inj; rewrite ?fin_opp; auto.
      * fold (fval (fmul x (fopp y))) (fval (fopp (fmul x y))). rewrite fval_opp. unfold fval, fmul. rewrite C1, C1'. apply rnd_opp.
      * unfold fopp at 2. rewrite Bsign_Bopp by exact N. unfold fmul in *. rewrite (C3 N), (C3' N'), Sy. destruct (Bsign x), (Bsign y); reflexivity.
    + apply sf_opp. unfold fmul. rewrite C, C', sf_overflow. f_equal. rewrite Sy. destruct (Bsign x), (Bsign y); reflexivity.
  - destruct x as [sx|sx| |sx mx ex Hx], y as [sy|sy| |sy my ey Hy]; try discriminate; try reflexivity; cbn; f_equal; destruct sx, sy; reflexivity.
  - destruct x as [sx|sx| |sx mx ex Hx], y as [sy|sy| |sy my ey Hy]; try discriminate; try reflexivity; cbn; f_equal; destruct sx, sy; reflexivity.
Qed.
Lemma fmul_comm x y : fmul x y = fmul y x.
Proof.
  destruct (is_finite x) eqn:Fx; [destruct (is_finite y) eqn:Fy|].
  - pose proof (Bmult_correct prec emax Hprec Hmax mode_NE x y) as C.
    pose proof (Bmult_correct prec emax Hprec Hmax mode_NE y x) as C'.
    fold (fval x) (fval y) in C. fold (fval x) (fval y) in C'. rewrite (Rmult_comm (fval y)), (xorb_comm (Bsign y)) in C'.
    cbn [round_mode] in C, C'. change (SpecFloat.fexp prec emax) with flt_exp in C, C'. change (bpow radix2 emax) with (B 1024) in C, C'.
    destruct (Rlt_bool (Rabs (rnd64 (fval x * fval y))) (B 1024)).
    + destruct C as (C1 & C2 & C3). destruct C' as (C1' & C2' & C3'). rewrite Fx, Fy in C2, C2'. cbn [andb] in C2, C2'.
      assert (N : is_nan (fmul x y) = false) by (unfold fmul; destruct (Bmult mode_NE x y); auto; discriminate).
      assert (N' : is_nan (fmul y x) = false) by (unfold fmul; destruct (Bmult mode_NE y x); auto; discriminate).
      apply B2R_Bsign_inj; auto; unfold fmul in *.
      * rewrite C1, C1'. reflexivity.
      * rewrite (C3 N), (C3' N'). reflexivity.
    + apply B2SF_inj. unfold fmul. rewrite C, C'. reflexivity.
  - destruct x as [sx|sx| |sx mx ex Hx], y as [sy|sy| |sy my ey Hy]; try discriminate; try reflexivity; cbn; f_equal; destruct sx, sy; reflexivity.
  - destruct x as [sx|sx| |sx mx ex Hx], y as [sy|sy| |sy my ey Hy]; try discriminate; try reflexivity; cbn; f_equal; destruct sx, sy; reflexivity.
Qed.
Lemma fadd_comm x y : fadd x y = fadd y x.
Proof.
  destruct (is_finite x) eqn:Fx; [destruct (is_finite y) eqn:Fy|].
  - pose proof (Bplus_correct prec emax Hprec Hmax mode_NE x y Fx Fy) as C.
    pose proof (Bplus_correct prec emax Hprec Hmax mode_NE y x Fy Fx) as C'.
    fold (fval x) (fval y) in C. fold (fval x) (fval y) in C'. rewrite (Rplus_comm (fval y)), (andb_comm (Bsign y)) in C'.
    cbn [round_mode] in C, C'. change (SpecFloat.fexp prec emax) with flt_exp in C, C'. change (bpow radix2 emax) with (B 1024) in C, C'.
    destruct (Rlt_bool (Rabs (rnd64 (fval x + fval y))) (B 1024)).
    + destruct C as (C1 & C2 & C3). destruct C' as (C1' & C2' & C3').
      apply B2R_Bsign_inj; auto; unfold fadd in *; [rewrite C1, C1'|rewrite C3, C3']; reflexivity.
    + destruct C as (C1 & S). destruct C' as (C1' & S'). apply B2SF_inj. unfold fadd. rewrite C1, C1', S. reflexivity.
  - destruct x as [sx|sx| |sx mx ex Hx], y as [sy|sy| |sy my ey Hy]; try discriminate; try reflexivity; destruct sx, sy; reflexivity.
  - destruct x as [sx|sx| |sx mx ex Hx], y as [sy|sy| |sy my ey Hy]; try discriminate; try reflexivity; destruct sx, sy; reflexivity.
Qed.
Lemma fmul_neg c x y : neg x y -> neg (fmul c x) (fmul c y).
Proof.
  intros [-> | [[s ->] [s' ->]]]; [left; apply fmul_opp|].
  destruct c as [sc|sc| |sc mc ec Hc]; cbn; try (left; reflexivity); apply neg_zero.
Qed.
Lemma fmul_neg_l c x y : neg x y -> neg (fmul x c) (fmul y c).
Proof. intros H. rewrite (fmul_comm x), (fmul_comm y). apply fmul_neg, H. Qed.
Lemma fsquare_neg x y : neg x y -> fmul y y = fmul x x.
Proof.
  intros [-> | [[s ->] [s' ->]]]; [rewrite fmul_opp, (fmul_comm (fopp x)), fmul_opp; apply fopp_invol|].
  cbn. rewrite !xorb_nilpotent. reflexivity.
Qed.
Lemma fdiv_neg x y c : neg x y -> is_finite c = true -> fval c <> 0 -> neg (fdiv x c) (fdiv y c).
Proof.
  intros N Fc Vc. pose proof (neg_fin _ _ N) as Fy. destruct (is_finite x) eqn:Fx.
  - pose proof (Bdiv_correct prec emax Hprec Hmax mode_NE x c Vc) as C.
    pose proof (Bdiv_correct prec emax Hprec Hmax mode_NE y c Vc) as C'.
    fold (fval x) (fval c) in C. fold (fval y) (fval c) in C'. rewrite (neg_val _ _ N) in C'.
    replace (- fval x / fval c) with (- (fval x / fval c)) in C' by (field; exact Vc).
    cbn [round_mode] in C, C'. change (SpecFloat.fexp prec emax) with flt_exp in C, C'. change (bpow radix2 emax) with (B 1024) in C, C'. rewrite round_opp_lt in C'.
    destruct (Rlt_bool_spec (Rabs (rnd64 (fval x / fval c))) (B 1024)) as [L|L].
    + destruct C as (C1 & C2 & _). destruct C' as (C1' & C2' & _). apply fin_neg; unfold fdiv, fval.
      * rewrite C2. exact Fx.
      * rewrite C2'. exact Fy.
      * rewrite C1, C1'. apply rnd_opp.
    + left. apply sf_opp. unfold fdiv. rewrite C, C', sf_overflow. f_equal.
      rewrite (sign_opp _ _ N); [destruct (Bsign x), (Bsign c); reflexivity|].
      intros Z. rewrite Z in L. unfold Rdiv in L. rewrite Rmult_0_l, rnd_0, Rabs_R0 in L. pose proof (bpow_gt_0 radix2 1024). lra.
  - rewrite (neg_nonfin _ _ N Fx). left. destruct x as [sx|sx| |sx mx ex Hx]; try discriminate; destruct c as [sc|sc| |sc mc ec Hc]; try discriminate;
      try reflexivity; cbn; destruct sx, sc; reflexivity.
Qed.
Lemma fle_opp x y : fle (fopp x) (fopp y) = fle y x.
Proof.
  unfold fle, Bleb, SpecFloat.SFleb. destruct x as [sx|sx| |sx mx ex Hx], y as [sy|sy| |sy my ey Hy]; try (destruct sx); try (destruct sy); try reflexivity;
    unfold fopp; cbn [Bopp B2SF negb SpecFloat.SFcompare];
    try change (Pos.compare_cont Eq mx my) with (mx ?= my)%positive; try change (Pos.compare_cont Eq my mx) with (my ?= mx)%positive;
    rewrite (Z.compare_antisym ex ey), (Pos.compare_antisym mx my); destruct (ex ?= ey)%Z, (mx ?= my)%positive; reflexivity.
Qed.
Lemma fle_zero x s s' : fle x (B754_zero s) = fle x (B754_zero s') /\ fle (B754_zero s) x = fle (B754_zero s') x.
Proof. split; unfold fle, Bleb, SpecFloat.SFleb; destruct x as [sx|sx| |sx mx ex Hx]; reflexivity. Qed.
Lemma fle_neg x y x' y' : neg x x' -> neg y y' -> fle x' y' = fle y x.
Proof.
  assert (K : forall a b, neg a b -> (forall z, fle b z = fle (fopp a) z) /\ (forall z, fle z b = fle z (fopp a))).
  { intros a b [-> | [[s ->] [s' ->]]]; [auto|]. split; intros z; apply fle_zero. }
  intros Nx Ny. destruct (K _ _ Nx) as [A _]. destruct (K _ _ Ny) as [_ C]. rewrite A, C. apply fle_opp.
Qed.
Lemma flt_opp x y : flt (fopp x) (fopp y) = flt y x.
Proof.
  unfold flt, Bltb, SpecFloat.SFltb. destruct x as [sx|sx| |sx mx ex Hx], y as [sy|sy| |sy my ey Hy]; try (destruct sx); try (destruct sy); try reflexivity;
    unfold fopp; cbn [Bopp B2SF negb SpecFloat.SFcompare];
    try change (Pos.compare_cont Eq mx my) with (mx ?= my)%positive; try change (Pos.compare_cont Eq my mx) with (my ?= mx)%positive;
    rewrite (Z.compare_antisym ex ey), (Pos.compare_antisym mx my); destruct (ex ?= ey)%Z, (mx ?= my)%positive; reflexivity.
Qed.
Lemma flt_zero x s s' : flt x (B754_zero s) = flt x (B754_zero s') /\ flt (B754_zero s) x = flt (B754_zero s') x.
Proof. split; unfold flt, Bltb, SpecFloat.SFltb; destruct x as [sx|sx| |sx mx ex Hx]; reflexivity. Qed.
Lemma flt_neg x y x' y' : neg x x' -> neg y y' -> flt x' y' = flt y x.
Proof.
  assert (K : forall a b, neg a b -> (forall z, flt b z = flt (fopp a) z) /\ (forall z, flt z b = flt z (fopp a))).
  { intros a b [-> | [[s ->] [s' ->]]]; [auto|]. split; intros z; apply flt_zero. }
  intros Nx Ny. destruct (K _ _ Nx) as [A _]. destruct (K _ _ Ny) as [_ C]. rewrite A, C. apply flt_opp.
Qed.
