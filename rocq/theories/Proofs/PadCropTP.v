(** Proofs about padding a typed array. *)
From Coq Require Import ZArith Bool List String Reals Lra Lia.
From Flocq Require Import Core IEEE754.BinarySingleNaN.
From Verif.Base Require Import Py Arr F64.
From Verif.Model Require Import Math PadCrop PadCropT.
From Verif.Spec Require Import PadCropTSpec.
From Verif.Proofs Require Import F64P MathP PadCropP.
Import ListNotations.
Open Scope Z_scope.

Definition isint (x : f64) (z : Z) : Prop := is_finite x = true /\ fval x = IZR z.
Lemma fofZ_int z : Z.abs z <= 2 ^ 53 -> isint (fofZ z) z.
Proof.
  intros H. destruct (fofZ_spec z H). split; auto.
Qed.
Lemma fofZ_rnd z : (Rabs (rnd64 (IZR z)) < bpow radix2 1024)%R -> fval (fofZ z) = rnd64 (IZR z) /\ is_finite (fofZ z) = true.
Proof.
  intros H. pose proof (binary_normalize_correct prec emax Hprec Hmax mode_NE z 0 false) as C.
  assert (E : F2R (Float radix2 z 0) = IZR z) by (unfold F2R; cbn; ring).
  rewrite E in C. cbn [round_mode] in C. change (round radix2 (SpecFloat.fexp prec emax) ZnearestE (IZR z)) with (rnd64 (IZR z)) in C.
  rewrite Rlt_bool_true in C by exact H. destruct C as (C1 & C2 & _). auto.
Qed.
Lemma small_int z : Z.abs z <= 2 ^ 53 -> (Rabs (rnd64 (IZR z)) < bpow radix2 1024)%R.
Proof.
  intros H. rewrite rnd_IZR by auto. rewrite <- abs_IZR. eapply Rle_lt_trans; [apply IZR_le; exact H|]. rewrite (IZR_Zpower radix2) by lia. apply bpow_lt. lia.
Qed.
Lemma fadd_int x y a b : isint x a -> isint y b -> Z.abs (a + b) <= 2 ^ 53 -> isint (fadd x y) (a + b).
Proof.
  intros [F1 V1] [F2 V2] H. destruct (fadd_spec x y F1 F2) as [V F]; rewrite V1, V2, <- plus_IZR in *.
  - apply small_int; auto.
  - split; auto. rewrite V. apply rnd_IZR; auto.
Qed.
Lemma fsub_int x y a b : isint x a -> isint y b -> Z.abs (a - b) <= 2 ^ 53 -> isint (fsub x y) (a - b).
Proof.
  intros [F1 V1] [F2 V2] H. destruct (fsub_spec x y F1 F2) as [V F]; rewrite V1, V2, <- minus_IZR in *.
  - apply small_int; auto.
  - split; auto. rewrite V. apply rnd_IZR; auto.
Qed.
Lemma fabs_int x a : isint x a -> isint (Babs x) (Z.abs a).
Proof.
  intros [F V]. split; [rewrite is_finite_Babs; auto|]. unfold fval in *. rewrite B2R_Babs, V. symmetry. apply abs_IZR.
Qed.
Lemma flt_int x y a b : isint x a -> isint y b -> flt x y = (a <? b).
Proof.
  intros [F1 V1] [F2 V2]. rewrite flt_val, V1, V2 by auto. destruct (Rlt_bool_spec (IZR a) (IZR b)) as [L|L]; symmetry.
  - apply Z.ltb_lt, lt_IZR, L.
  - apply Z.ltb_ge, le_IZR, L.
Qed.
Lemma zero_int : isint fzero 0. Proof. split; reflexivity. Qed.
Lemma fceil_half z : Z.abs z < 2 ^ 53 -> isint (fceil (fdiv (fofZ z) (fofZ 2))) (Zceil (IZR z / 2)).
Proof.
  intros H. destruct (fofZ_int z ltac:(lia)) as [F1 V1]. destruct (fofZ_int 2 ltac:(lia)) as [F2 V2].
  destruct (fdiv_spec (fofZ z) (fofZ 2) F1) as [V F].
  - rewrite V2. lra.
  - rewrite V1, V2, rnd_half by auto. apply Rle_lt_trans with (Rabs (IZR z)).
    + unfold Rdiv. rewrite Rabs_mult, (Rabs_pos_eq (/ 2)) by lra. pose proof (Rabs_pos (IZR z)). lra.
    + rewrite <- abs_IZR. eapply Rle_lt_trans; [apply IZR_le, Z.lt_le_incl; exact H|]. rewrite (IZR_Zpower radix2) by lia. apply bpow_lt. lia.
  - rewrite V1, V2, rnd_half in V by auto. destruct (fceil_spec (fdiv (fofZ z) (fofZ 2))) as [A B]. split; [congruence|]. rewrite A, V. auto.
Qed.
Lemma ceil_half_bound z m : Z.abs z <= m -> Z.abs (Zceil (IZR z / 2)) <= m.
Proof.
  intros H. assert (Hz : (- IZR m <= IZR z <= IZR m)%R) by (rewrite <- opp_IZR; split; apply IZR_le; lia).
  assert (0 <= m) by lia. assert (0 <= IZR m)%R by (apply IZR_le; auto).
  apply Z.abs_le. split.
  - apply le_IZR. rewrite opp_IZR. eapply Rle_trans; [|apply Zceil_ub]. lra.
  - apply Zceil_glb. lra.
Qed.

Lemma offcenter_pad_int n n_in c : 0 < n <= 2 ^ 50 -> 0 < n_in <= 2 ^ 50 -> Z.abs c <= 2 ^ 50 ->
  offcenter_pad_f n n_in c = Ok (offcenter_pad n n_in c).
Proof.
  intros Hn Hi Hc. unfold offcenter_pad_f, offcenter_pad. cbv zeta.
  pose proof (ceil_half_bound n (2 ^ 50) ltac:(lia)) as B1. pose proof (ceil_half_bound (- n) (2 ^ 50) ltac:(lia)) as B2.
  pose proof (fceil_half n ltac:(lia)) as C1. pose proof (fceil_half (- n) ltac:(lia)) as C2.
  rewrite opp_IZR in B2, C2. set (h := Zceil (IZR n / 2)) in *. set (l := Zceil (- IZR n / 2)) in *.
  assert (L : isint (fadd (fceil (fdiv (fofZ (- n)) (fofZ 2))) (fofZ c)) (l + c)) by (apply fadd_int; [exact C2|apply fofZ_int; lia|lia]).
  assert (H : isint (fadd (fceil (fdiv (fofZ n) (fofZ 2))) (fofZ c)) (h + c)) by (apply fadd_int; [exact C1|apply fofZ_int; lia|lia]).
  rewrite (flt_int _ _ _ _ L zero_int), (flt_int _ _ (n_in - 1) _ (fofZ_int (n_in - 1) ltac:(lia)) H). 
  assert (P : isint (if l + c <? 0 then Babs (fadd (fceil (fdiv (fofZ (- n)) (fofZ 2))) (fofZ c)) else fzero) (if l + c <? 0 then Z.abs (l + c) else 0)).
  { destruct (l + c <? 0); [apply fabs_int, L|apply zero_int]. }
  assert (Q : isint (if n_in - 1 <? h + c then fsub (fadd (fceil (fdiv (fofZ n) (fofZ 2))) (fofZ c)) (fofZ n_in) else fzero) (if n_in - 1 <? h + c then h + c - n_in else 0)).
  { destruct (n_in - 1 <? h + c); [apply fsub_int; [exact H|apply fofZ_int; lia|lia]|apply zero_int]. }
  change (binary_float prec emax) with f64 in P, Q |- *. rewrite (flt_int _ _ _ _ P Q).
  set (p := if l + c <? 0 then Z.abs (l + c) else 0) in *. set (q := if n_in - 1 <? h + c then h + c - n_in else 0) in *.
  destruct (Z.ltb_spec p q).
  - rewrite Z.max_r by lia. destruct Q as [F V]. apply int_of_float_IZR; auto.
  - rewrite Z.max_l by lia. destruct P as [F V]. apply int_of_float_IZR; auto.
Qed.
Lemma frint_spec x : is_finite x = true -> isint (frint x) (ZnearestE (fval x)).
Proof.
  intros F. destruct (Bnearbyint_correct prec emax Hmax mode_NE x) as (A & B & _). split; [unfold frint; congruence|].
  rewrite round_FIX0 in A. exact A.
Qed.
Lemma fmul_one x : fmul x (fofZ 1) = x.
Proof.
  destruct (fofZ_int 1 ltac:(lia)) as [F1 V1]. destruct x as [s|s| |s m e Hm].
  - destruct s; reflexivity.
  - destruct s; reflexivity.
  - reflexivity.
  - set (x := B754_finite s m e Hm). assert (Fx : is_finite x = true) by reflexivity.
    assert (I : rnd64 (fval x * fval (fofZ 1)) = fval x) by (rewrite V1, Rmult_1_r; apply rnd_id, fval_format).
    destruct (fmul_spec x (fofZ 1) Fx F1) as [V F]; [rewrite I; apply fval_bound|]. rewrite I in V.
    apply (B2R_Bsign_inj prec emax); auto.
    pose proof (Bmult_correct prec emax Hprec Hmax mode_NE x (fofZ 1)) as C.
    change (round radix2 (SpecFloat.fexp prec emax) (round_mode mode_NE) (B2R x * B2R (fofZ 1))) with (rnd64 (fval x * fval (fofZ 1))) in C.
    rewrite I, Rlt_bool_true in C by apply fval_bound. destruct C as (_ & _ & C). unfold fmul. rewrite C.
    + change (Bsign (fofZ 1)) with false. apply xorb_false_r.
    + fold (fmul x (fofZ 1)). destruct (fmul x (fofZ 1)); try reflexivity. discriminate.
Qed.

Lemma padded t wild (a : arr (elt t)) h w s x : wf a -> 0 < h -> 0 < w -> as_double s = Some x ->
  exists out, pad_crop_t wild t a [h; w] s = Ok out /\ padded_with a out h w (cast wild t x).
Proof.
  intros W Hh Hw E. unfold pad_crop_t. rewrite E, fmul_one. destruct (pad_crop_ok a h w (cast wild t x) W Hh Hw) as (o & E' & A & B & D).
  exists o. split; auto. split; auto. 
Qed.
Lemma as_double_small s : small s -> forall r, number_of s r -> exists x, as_double s = Some x /\ is_finite x = true /\ fval x = r.
Proof.
  destruct s as [b|z|x|]; cbn [small number_of as_double]; intros H r N.
  - eexists. split; [reflexivity|]. subst r. destruct (fofZ_int (if b then 1 else 0) ltac:(destruct b; lia)) as [F V]. split; auto. rewrite V. destruct b; auto.
  - eexists. split; [reflexivity|]. subst r. apply fofZ_int; auto.
  - destruct N as [F ->]. exists x. auto.
  - contradiction.
Qed.
Lemma cast_number wild t x : is_finite x = true -> (t = Tint -> in_int64 (Ztrunc (fval x)) = true) -> holds_number t (cast wild t x) (fval x).
Proof.
  intros F I. destruct t; cbn [holds_number cast].
  - rewrite feq_val by auto. change (fval fzero) with 0%R. rewrite negb_true_iff. destruct (Req_bool_spec (fval x) 0); split; intros; auto; try discriminate; contradiction.
  - rewrite F. cbn [andb]. assert (E : Btrunc x = Ztrunc (fval x)).
    { apply eq_IZR. rewrite (Btrunc_correct prec emax Hmax). rewrite round_FIX0. reflexivity. }
    rewrite E, (I eq_refl). auto.
  - auto.
  - auto.
Qed.
Lemma pad_number t wild (a : arr (elt t)) h w s r : wf a -> 0 < h -> 0 < w -> small s -> number_of s r ->
  (t = Tint -> - 2 ^ 63 <= Ztrunc r < 2 ^ 63) ->
  exists out v, pad_crop_t wild t a [h; w] s = Ok out /\ padded_with a out h w v /\ holds_number t v r.
Proof.
  intros W Hh Hw S N I. destruct (as_double_small s S r N) as (x & E & F & V). destruct (padded t wild a h w s x W Hh Hw E) as (o & E' & P).
  exists o, (cast wild t x). split; auto. split; auto. rewrite <- V. apply cast_number; auto. intros Q. rewrite V. unfold in_int64.
  specialize (I Q). apply andb_true_iff. split; [apply Z.leb_le|apply Z.ltb_lt]; lia.
Qed.
Lemma pad_float wild (a : arr f64) h w x : wf a -> 0 < h -> 0 < w ->
  (exists out, pad_crop_t wild Tfloat a [h; w] (SFloat x) = Ok out /\ padded_with a out h w x).
Proof. intros W Hh Hw. apply (padded Tfloat wild a h w (SFloat x) x); auto. Qed.
Lemma pad_bool_nan wild (a : arr bool) h w : wf a -> 0 < h -> 0 < w ->
  (exists out, pad_crop_t wild Tbool a [h; w] (SFloat F64.fnan) = Ok out /\ padded_with a out h w true).
Proof. intros W Hh Hw. apply (padded Tbool wild a h w (SFloat F64.fnan) F64.fnan); auto. Qed.
Lemma pad_t_err wild t (a : arr (elt t)) sz s e : wf a ->
  (pad_crop_t wild t a sz s = Err e <-> e = TypeError /\ (s = SOther \/ ~ exists h w, sz = [h; w] /\ 0 < h /\ 0 < w)).
Proof.
  intros W. unfold pad_crop_t. destruct (as_double s) as [x|] eqn:E.
  - split.
    + intros H. apply pad_crop_err in H as [-> H]; auto.
    + intros [-> [->|H]]; [discriminate|]. destruct (pad_crop a sz _) as [o|x'] eqn:P.
      * exfalso. apply H. destruct sz as [|h [|w [|? ?]]]; try discriminate. exists h, w. split; auto. cbn in P.
        apply guard_ok in P as (P1 & P). apply guard_ok in P as (P2 & _). split; apply Z.ltb_lt; auto.
      * apply pad_crop_err in P as [-> _]; auto.
  - split; [intros [= <-]; split; auto; left; destruct s; try discriminate; auto|intros [-> _]; auto].
Qed.
Lemma large_fill : ~ (forall wild (a out : arr Z) h w z, wf a -> 0 < h -> 0 < w -> - 2 ^ 63 <= z < 2 ^ 63 ->
  pad_crop_t wild Tint a [h; w] (SInt z) = Ok out -> padded_with a out h w z).
Proof.
  intros H. set (a := afull 1 1 0%Z). set (z := 2 ^ 53 + 1).
  assert (W : wf a) by (split; cbn; lia).
  destruct (padded Tint (fun _ => 0) a 3 3 (SInt z) _ W ltac:(lia) ltac:(lia) eq_refl) as (o & E & (N1 & N2 & P)).
  specialize (H (fun _ => 0) a o 3 3 z W ltac:(lia) ltac:(lia) ltac:(unfold z; lia) E). destruct H as (_ & _ & H).
  specialize (H 0 0 ltac:(lia) ltac:(lia)). specialize (P 0 0 ltac:(lia) ltac:(lia)). assert (G := eq_trans (eq_sym P) H). revert G. clear.
  replace (cast (fun _ => 0) Tint (fofZ z)) with (2 ^ 53) by (vm_compute; reflexivity). cbn. discriminate.
Qed.
Lemma near_fill wild (a : arr Z) h w z : wf a -> 0 < h -> 0 < w -> Z.abs z <= 2 ^ 62 ->
  exists out v, pad_crop_t wild Tint a [h; w] (SInt z) = Ok out /\ padded_with a out h w v /\ Z.abs (v - z) <= 2 ^ 9.
Proof.
  intros W Hh Hw Hz. destruct (padded Tint wild a h w (SInt z) _ W Hh Hw eq_refl) as (o & E & P). eexists o, _. split; [exact E|]. split; [exact P|].
  assert (B : (Rabs (IZR z) <= bpow radix2 62)%R) by (rewrite <- abs_IZR, <- (IZR_Zpower radix2) by lia; apply IZR_le; auto).
  destruct (rnd_small (IZR z) 62 ltac:(lia) B) as [R1 R2].
  destruct (fofZ_rnd z R2) as [V F]. 
  (* a double of magnitude at least 2^53 is an integer; smaller integers are exact *)
  assert (K : exists k, fval (fofZ z) = IZR k).
  { rewrite V. destruct (Z_le_dec (Z.abs z) (2 ^ 53)) as [L|L]; [exists z; apply rnd_IZR; auto|].
    exists (ZnearestE (scaled_mantissa radix2 flt_exp (IZR z)) * 2 ^ (cexp radix2 flt_exp (IZR z))).
    rewrite mult_IZR. unfold round, F2R. cbn [Fnum Fexp]. f_equal. rewrite (IZR_Zpower radix2); auto.
    unfold cexp, FLT_exp. assert (53 < mag radix2 (IZR z))%Z; [|lia].
    apply Z.lt_le_trans with 54; [lia|]. apply mag_ge_bpow. rewrite <- abs_IZR. change (54 - 1) with 53. rewrite <- (IZR_Zpower radix2) by lia. apply IZR_le. cbn -[Z.pow]. change (radix_val radix2) with 2. lia. }
  destruct K as (k & K). assert (T : Btrunc (fofZ z) = k) by (apply Btrunc_IZR; auto).
  assert (D : (Rabs (IZR k - IZR z) <= IZR (2 ^ 9))%R).
  { rewrite <- K, V. eapply Rle_trans; [apply error_le_half_ulp; auto with typeclass_instances|].
    apply Rle_trans with (/ 2 * bpow radix2 10)%R; [|change (bpow radix2 10) with 1024%R; change (2 ^ 9) with 512; lra].
    apply Rmult_le_compat_l; [lra|]. destruct (Req_dec (IZR z) 0) as [Z0|Z0].
    - rewrite Z0, ulp_FLT_0 by (auto with typeclass_instances). apply bpow_le. lia.
    - rewrite ulp_neq_0 by auto. apply bpow_le. unfold cexp, FLT_exp.
      assert (mag radix2 (IZR z) <= 63)%Z; [|lia]. apply mag_le_bpow; auto. eapply Rle_lt_trans; [exact B|]. apply bpow_lt. lia. }
  unfold cast. rewrite F, T. cbn [andb].
  assert (KB : (Rabs (IZR k) <= IZR (2 ^ 62))%R) by (rewrite <- K, V; eapply Rle_trans; [exact R1|]; rewrite <- (IZR_Zpower radix2) by lia; apply Rle_refl).
  rewrite <- abs_IZR in KB. apply le_IZR in KB.
  replace (in_int64 k) with true; [|symmetry; unfold in_int64; apply andb_true_iff; split; [apply Z.leb_le|apply Z.ltb_lt]; lia].
  rewrite <- minus_IZR, <- abs_IZR in D. apply le_IZR in D. exact D.
Qed.
Lemma window_t wild t (a : arr (elt t)) n cy cx : 0 < nr a <= 2 ^ 50 -> 0 < nc a <= 2 ^ 50 -> 0 < n <= 2 ^ 50 ->
  is_finite cy = true -> is_finite cx = true -> Z.abs (ZnearestE (fval cy)) <= 2 ^ 50 -> Z.abs (ZnearestE (fval cx)) <= 2 ^ 50 ->
  exists out, offcenter_crop_t wild t a n cy cx = Ok out /\ window_about a out n (ZnearestE (fval cy)) (ZnearestE (fval cx)) (zero_of t).
Proof.
  intros H1 H2 H3 Fy Fx By Bx.
  destruct (offcenter_crop_ok (zero_of t) a n (fval cy) (fval cx) ltac:(lia) ltac:(lia) ltac:(lia)) as (o & E & A & B & D).
  exists o. split; [|split; [auto|split; auto]]. rewrite <- E. unfold offcenter_crop_t, offcenter_crop. f_equal. 
  destruct (frint_spec cy Fy) as [G1 G2]. destruct (frint_spec cx Fx) as [G3 G4].
  rewrite (int_of_float_IZR _ _ G1 G2), (int_of_float_IZR _ _ G3 G4). cbn [bind].
  rewrite !offcenter_pad_int by auto. cbn [bind]. unfold pad_crop_t. cbn [as_double]. rewrite fmul_one.
  replace (cast wild t (fofZ 0)) with (zero_of t) by (destruct t; vm_compute; reflexivity). reflexivity.
Qed.
Lemma window_refused wild t (a : arr (elt t)) n cy cx e : 0 < nr a <= 2 ^ 50 -> 0 < nc a <= 2 ^ 50 -> n <= 2 ^ 50 ->
  (is_finite cy = true -> Z.abs (ZnearestE (fval cy)) <= 2 ^ 50) -> (is_finite cx = true -> Z.abs (ZnearestE (fval cx)) <= 2 ^ 50) ->
  (offcenter_crop_t wild t a n cy cx = Err e <->
   (n <= 0 /\ e = TypeError) \/ (0 < n /\ is_finite cy = false /\ e = (if is_nan cy then ValueError else Custom "OverflowError"%string)) \/
   (0 < n /\ is_finite cy = true /\ is_finite cx = false /\ e = (if is_nan cx then ValueError else Custom "OverflowError"%string))).
Proof.
  intros H1 H2 H3 By Bx. destruct (Z_lt_dec 0 n) as [Hn|Hn].
  2: { unfold offcenter_crop_t. replace (0 <? n) with false by (symmetry; apply Z.ltb_ge; lia). cbn [guard bind].
       split; [intros [= <-]; left; split; [lia|auto]|]. intros [[_ ->]|[[Q _]|[Q _]]]; [auto|lia|lia]. }
  destruct (is_finite cy) eqn:Fy.
  - destruct (is_finite cx) eqn:Fx.
    + destruct (window_t wild t a n cy cx) as (o & E & _); auto; try lia. rewrite E. split; [discriminate|].
      intros [[Q _]|[(_ & Q & _)|(_ & _ & Q & _)]]; [lia|discriminate|discriminate].
    + unfold offcenter_crop_t. rewrite guard_true by (apply Z.ltb_lt; auto). destruct (frint_spec cy Fy) as [G1 G2].
      rewrite (int_of_float_IZR _ _ G1 G2). cbn [bind].
      destruct cx as [s|s| |s m ex Hm]; try discriminate; cbn [frint Bnearbyint int_of_float bind is_nan].
      * split; [intros [= <-]; auto 10|]. intros [[Q _]|[(_ & Q & _)|(_ & _ & _ & ->)]]; [lia|discriminate|auto].
      * split; [intros [= <-]; auto 10|]. intros [[Q _]|[(_ & Q & _)|(_ & _ & _ & ->)]]; [lia|discriminate|auto].
  - unfold offcenter_crop_t. rewrite guard_true by (apply Z.ltb_lt; auto).
    destruct cy as [s|s| |s m ex Hm]; try discriminate; cbn [frint Bnearbyint int_of_float bind is_nan].
    * split; [intros [= <-]; auto 10|]. intros [[Q _]|[(_ & _ & ->)|(_ & Q & _)]]; [lia|auto|discriminate].
    * split; [intros [= <-]; auto 10|]. intros [[Q _]|[(_ & _ & ->)|(_ & Q & _)]]; [lia|auto|discriminate].
Qed.
