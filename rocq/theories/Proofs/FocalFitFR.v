(** The focal-mask estimates in double precision never go the wrong way. *)
From Coq Require Import ZArith Reals Bool List Permutation Lia Lra Psatz.
From Flocq Require Import Core BinarySingleNaN Relative.
From Verif.Base Require Import Py Arr Sums F64 Lstsq.
From Verif.Model Require Import ShapesF FocalFitF.
From Verif.Spec Require Import BrightFSpec FocalFitFSpec.
From Verif.Proofs Require Import F64P F64N ShapesFP ShapesFA BrightFP BrightFQ BrightFR FocalFitFP FocalFitFQ.
Import ListNotations.
Local Open Scope R_scope.
Local Notation B := (bpow radix2).

(** ** Sums *)
Definition posinf (x : f64) : Prop := x = finf \/ is_finite x = true /\ 0 <= fval x.
Definition below (x y : f64) : Prop := y = finf \/ (is_finite x = true /\ is_finite y = true /\ fval x <= fval y).
Lemma fadd_overflow x y : is_finite x = true -> is_finite y = true -> 0 <= fval x -> 0 <= fval y -> B 1024 <= rnd64 (fval x + fval y) -> fadd x y = finf.
Proof.
  intros Fx Fy Px Py H. destruct (pos_or_inf_add x y) as [E|[F N]]; auto. exfalso.
  pose proof (Bplus_correct prec emax Hprec Hmax mode_NE x y Fx Fy) as C.
  change (round radix2 (SpecFloat.fexp prec emax) (round_mode mode_NE) (B2R x + B2R y)) with (rnd64 (fval x + fval y)) in C.
  rewrite Rlt_bool_false in C by (change (bpow radix2 emax) with (B 1024); rewrite Rabs_right; [exact H|]; pose proof (bpow_gt_0 radix2 1024); lra).
  destruct C as [C _]. unfold fadd in F. destruct (Bplus mode_NE x y); cbn in C, F; discriminate.
Qed.
Lemma fadd_below x y x' y' : posinf x -> posinf y -> posinf x' -> posinf y' -> below x x' -> below y y' -> below (fadd x y) (fadd x' y').
Proof.
  intros Px Py Px' Py' [->|(F & F' & L)] K.
  - left. destruct Py' as [->|[F _]]; [reflexivity|]. destruct y'; try discriminate F; reflexivity.
  - destruct K as [->|(G & G' & M)]; [left; destruct x'; try discriminate F'; reflexivity|].
    assert (V0 : forall z, posinf z -> is_finite z = true -> 0 <= fval z) by (intros z [->|[_ H]] H'; [discriminate H'|exact H]).
    pose proof (V0 _ Px F). pose proof (V0 _ Py G). pose proof (V0 _ Px' F'). pose proof (V0 _ Py' G').
    assert (Mo : rnd64 (fval x + fval y) <= rnd64 (fval x' + fval y')) by (apply rnd_mono; lra).
    assert (N0 : 0 <= rnd64 (fval x + fval y)) by (apply rnd_nonneg; lra).
    destruct (Rlt_or_le (rnd64 (fval x' + fval y')) (B 1024)) as [S|O]; [|left; apply fadd_overflow; auto].
    destruct (fadd_spec x y F G) as [V W]; [rewrite Rabs_right; lra|]. destruct (fadd_spec x' y' F' G') as [V' W']; [rewrite Rabs_right; lra|].
    right. rewrite V, V'. auto.
Qed.
Lemma carry_below p l l' : (forall k, posinf (nth k l fzero)) -> (forall k, posinf (nth k l' fzero)) ->
  (forall k, below (nth k l fzero) (nth k l' fzero)) -> posinf (carry_out p l) /\ posinf (carry_out p l') /\ below (carry_out p l) (carry_out p l').
Proof.
  intros P P' H. induction p as [|k|p1 (A & A' & L) p2 (C & C' & M)]; cbn [carry_out].
  - assert (posinf fzero) by (right; split; [reflexivity|cbn; lra]). split; auto. split; auto. right. repeat split. lra.
  - auto.
  - split; [|split]; [apply pos_or_inf_add; auto|apply pos_or_inf_add; auto|apply fadd_below; auto].
Qed.
Lemma added_ge l s x : added_up l s -> (forall y, In y l -> is_finite y = true /\ 0 <= fval y) -> is_finite s = true -> In x l -> fval x <= fval s /\ 0 <= fval s.
Proof.
  intros A. revert x. induction A as [|y|l m s t A IHA A' IHB|l m s Q A IH]; intros x H Fs I.
  - destruct I.
  - destruct I as [->|[]]. split; [lra|]. apply H. left. reflexivity.
  - assert (Hl : forall y, In y l -> is_finite y = true /\ 0 <= fval y) by (intros; apply H, in_or_app; auto).
    assert (Hm : forall y, In y m -> is_finite y = true /\ 0 <= fval y) by (intros; apply H, in_or_app; auto).
    assert (Ps : posinf s) by (apply added_pos with l; auto). assert (Pt : posinf t) by (apply added_pos with m; auto).
    assert (Fss : is_finite s = true) by (destruct (is_finite s) eqn:E; auto; rewrite fadd_nonfin_l in Fs by auto; discriminate).
    assert (Ftt : is_finite t = true) by (destruct (is_finite t) eqn:E; auto; rewrite fadd_nonfin_r in Fs by auto; discriminate).
    assert (Ns : 0 <= fval s) by (destruct Ps as [->|[_ N]]; [discriminate Fss|exact N]).
    assert (Nt : 0 <= fval t) by (destruct Pt as [->|[_ N]]; [discriminate Ftt|exact N]).
    assert (V : fval (fadd s t) = rnd64 (fval s + fval t)).
    { destruct (Rlt_or_le (rnd64 (fval s + fval t)) (B 1024)) as [S|O].
      - apply fadd_spec; auto. rewrite Rabs_right; auto. apply Rle_ge, rnd_nonneg. lra.
      - rewrite fadd_overflow in Fs by auto. discriminate Fs. }
    rewrite V. split; [|apply rnd_nonneg; lra]. apply in_app_iff in I as [I|I].
    + apply Rle_trans with (fval s); [apply (IHA x); auto|]. rewrite <- (rnd_id (fval s)) at 1 by apply fval_format. apply rnd_mono. lra.
    + apply Rle_trans with (fval t); [apply (IHB x); auto|]. rewrite <- (rnd_id (fval t)) at 1 by apply fval_format. apply rnd_mono. lra.
  - apply (IH x); auto; [intros y Iy; apply H; apply (Permutation_in y Q), Iy|apply (Permutation_in x (Permutation_sym Q)), I].
Qed.

Definition mask_like (m : arr f64) : Prop := forall i j, is_finite (at2 m i j) = true /\ (fval (at2 m i j) = 0 \/ B (-52) <= fval (at2 m i j) <= 1).
Lemma fmt_pow k : (-1074 <= k)%Z -> fmt64 (B k).
Proof. intros H. apply generic_format_bpow. unfold FLT_exp. lia. Qed.
Section Light.
Variables (np_sum : list f64 -> f64) (m : arr f64).
Hypothesis Hs : sums_up np_sum.
Hypothesis Hm : mask_like m.
Definition product (a : arr f64) (p : Z * Z) : f64 := fmul (at2 m (fst p) (snd p)) (at2 a (fst p) (snd p)).
Lemma product_ok a p : photon_counts a -> In p (indices (nr a) (nc a)) ->
  is_finite (product a p) = true /\ (fval (product a p) = 0 \/ B (-52) <= fval (product a p) <= B 350) /\
  fval (product a p) = rnd64 (fval (at2 m (fst p) (snd p)) * fval (at2 a (fst p) (snd p))).
Proof.
  intros (_ & _ & _ & H) I. apply in_indices in I as [Hi Hj]. destruct (H (fst p) (snd p) (conj Hi Hj)) as [F V].
  destruct (Hm (fst p) (snd p)) as [Fm Vm]. unfold product. set (x := at2 m (fst p) (snd p)) in *. set (y := at2 a (fst p) (snd p)) in *.
  assert (P52 : 0 < B (-52)) by apply bpow_gt_0. assert (P350 : 1 <= B 350) by (change 1 with (B 0); apply bpow_le; lia).
  assert (B1 : 0 <= fval x <= 1) by lra. assert (B2 : 0 <= fval y <= B 350) by lra.
  destruct (fmul_within 0 350 x y ltac:(lia)) as [E W]; [split; auto; rewrite Rabs_right by lra; cbn; lra|split; auto; rewrite Rabs_right by lra; lra|].
  split; [apply W|]. split; [|exact E]. rewrite E.
  destruct Vm as [Z|Vm]; [left; rewrite Z, Rmult_0_l; apply rnd_0|]. destruct V as [Z|V]; [left; rewrite Z, Rmult_0_r; apply rnd_0|]. right. split.
  - rewrite <- (rnd_id (B (-52))) by (apply fmt_pow; lia). apply rnd_mono. nra.
  - destruct W as [_ W]. rewrite E in W. apply Rabs_le_inv in W. change (0 + 350)%Z with 350%Z in W. lra.
Qed.
Lemma products_sum a l : photon_counts a -> (forall p, In p l -> In p (indices (nr a) (nc a))) ->
  lsum fval (map (product a) l) <= INR (List.length l) * B 350.
Proof.
  intros Ph. assert (P0 : 0 < B 350) by apply bpow_gt_0. assert (P52 : B (-52) < B 350) by (apply bpow_lt; lia).
  induction l as [|p l IH]; intros H; [cbn; lra|]. rewrite map_cons.
  change (lsum fval (product a p :: map (product a) l)) with (fval (product a p) + lsum fval (map (product a) l)).
  change (List.length (p :: l)) with (S (List.length l)). rewrite S_INR.
  assert (IH' := IH (fun q I => H q (or_intror I))). destruct (product_ok a p Ph (H p (or_introl eq_refl))) as (_ & [Z|Z] & _); lra.
Qed.
Lemma light_range a : photon_counts a -> is_finite (light np_sum m a) = true /\
  (fval (light np_sum m a) = 0 \/ B (-52) <= fval (light np_sum m a) <= B 400).
Proof.
  intros Ph. pose proof Ph as (Hr & Hc & Hn & _). set (l := indices (nr a) (nc a)).
  change (light np_sum m a) with (np_sum (map (product a) l)).
  assert (Len : INR (List.length l) <= B 40).
  { unfold l. rewrite indices_length by lia. rewrite <- (IZR_Zpower radix2) by lia. apply IZR_le. exact Hn. }
  assert (Fin : forall x, In x (map (product a) l) -> is_finite x = true /\ 0 <= fval x).
  { intros x I. apply in_map_iff in I as (p & <- & I). destruct (product_ok a p Ph I) as (F & V & _). split; auto. pose proof (bpow_gt_0 radix2 (-52)). lra. }
  assert (Su : lsum fval (map (product a) l) <= B 390).
  { eapply Rle_trans; [apply products_sum; auto|]. change 390%Z with (40 + 350)%Z. rewrite bpow_plus. apply Rmult_le_compat_r; [apply bpow_ge_0|exact Len]. }
  assert (B390 : B 390 < B 1010) by (apply bpow_lt; lia).
  assert (Kl : klen (map (product a) l) <= B 42).
  { unfold klen. rewrite map_length. apply Rle_trans with (INR (List.length l)); [apply le_INR; lia|]. apply Rle_trans with (B 40); [exact Len|apply bpow_le; lia]. }
  destruct (sum_rel _ _ (Hs _) Fin Kl ltac:(lra)) as (F & N & U & _). split; [exact F|].
  destruct (Req_dec (fval (np_sum (map (product a) l))) 0) as [Z|Z]; [left; exact Z|right]. split.
  - assert (Ex : exists p, In p l /\ fval (product a p) <> 0).
    { assert (Dec : (exists p, In p l /\ fval (product a p) <> 0) \/ forall p, In p l -> fval (product a p) = 0).
      { clear. induction l as [|p l [(q & I & N)|H]]; [right; intros p []|left; exists q; split; [right; exact I|exact N]|].
        destruct (Req_dec (fval (product a p)) 0) as [E|E]; [right; intros q [->|I]; auto|left; exists p; split; [left; reflexivity|exact E]]. }
      destruct Dec as [D|D]; [exact D|]. exfalso. apply Z. apply (added_zeros _ _ (Hs _)). intros x I. apply in_map_iff in I as (p & <- & I).
      split; [apply (product_ok a p Ph I)|apply D, I]. }
    destruct Ex as (p & I & Np). destruct (product_ok a p Ph I) as (_ & [V|V] & _); [contradiction|].
    apply Rle_trans with (fval (product a p)); [apply V|]. apply (added_ge _ _ _ (Hs _) Fin F). apply in_map, I.
  - pose proof (small_k (klen (map (product a) l)) ltac:(split; [apply pos_INR|exact Kl])) as Sk.
    set (k := klen _ * _) in *. set (s := fval (np_sum _)) in *.
    assert (s <= 2 * B 390) by nra. apply Rle_trans with (2 * B 390); [lra|]. change 2 with (B 1). rewrite <- bpow_plus. apply bpow_le. lia.
Qed.
Lemma eps_val : is_finite feps_f = true /\ fval feps_f = B (-52).
Proof.
  split; [reflexivity|]. unfold feps_f. destruct (fofZ_spec 1 ltac:(lia)) as [V1 F1].
  destruct (fdiv_int_within 0 (fofZ 1) (2 ^ 52) ltac:(lia) (fofZ_within 0 1 ltac:(lia) ltac:(lia)) ltac:(lia)) as [V _].
  rewrite V, V1. replace (1 / IZR (2 ^ 52)) with (B (-52)); [apply rnd_id, fmt_pow; lia|]. change (B (-52)) with (/ IZR (2 ^ 52)). field. apply not_0_IZR. discriminate.
Qed.
Lemma roi_range a : photon_counts a -> is_finite (roi_sum_f np_sum m a) = true /\ B (-52) <= fval (roi_sum_f np_sum m a) <= B 400.
Proof.
  intros Ph. destruct (light_range a Ph) as [F V]. unfold roi_sum_f. fold (light np_sum m a).
  rewrite fle_val by auto. change (fval fzero) with 0. destruct (Rle_bool_spec (fval (light np_sum m a)) 0) as [L|L].
  - destruct eps_val as [Fe Ve]. split; auto. rewrite Ve. split; [lra|apply bpow_le; lia].
  - split; auto. destruct V as [Z|V]; [lra|exact V].
Qed.
Hypothesis Hp : by_plan np_sum.
Lemma roi_mono a a' : photon_counts a -> photon_counts a' -> nr a = nr a' -> nc a = nc a' -> brighter_on m a a' ->
  fval (roi_sum_f np_sum m a) <= fval (roi_sum_f np_sum m a').
Proof.
  intros Ph Ph' Er Ec Br. destruct (light_range a Ph) as [F V]. destruct (light_range a' Ph') as [F' V'].
  assert (L : fval (light np_sum m a) <= fval (light np_sum m a')).
  { destruct Hp as [p E]. change (light np_sum m a) with (np_sum (map (product a) (indices (nr a) (nc a)))) in *.
    change (light np_sum m a') with (np_sum (map (product a') (indices (nr a') (nc a')))) in *. rewrite <- Er, <- Ec in *.
    rewrite !E, !map_length in *. set (l := indices (nr a) (nc a)) in *. set (q := p _) in *.
    assert (In' : forall pt, In pt l -> In pt (indices (nr a') (nc a'))) by (intros pt; unfold l; rewrite Er, Ec; auto).
    assert (Z : posinf fzero) by (right; split; [reflexivity|cbn; lra]). pose proof (bpow_gt_0 radix2 (-52)) as P52.
    assert (K : forall k, posinf (nth k (map (product a) l) fzero) /\ posinf (nth k (map (product a') l) fzero) /\
      below (nth k (map (product a) l) fzero) (nth k (map (product a') l) fzero)).
    { intros k. destruct (Nat.lt_ge_cases k (List.length l)) as [Hk|Hk].
      - rewrite !(nth_indep _ fzero (product a (0, 0)%Z)) by (rewrite map_length; auto). rewrite map_nth.
        rewrite (nth_indep _ (product a (0, 0)%Z) (product a' (0, 0)%Z)) by (rewrite map_length; auto). rewrite map_nth.
        set (pt := nth k l (0, 0)%Z). assert (I : In pt l) by (apply nth_In, Hk).
        destruct (product_ok a pt Ph I) as (G & W & X). destruct (product_ok a' pt Ph' (In' pt I)) as (G' & W' & X').
        split; [right; split; auto; lra|]. split; [right; split; auto; lra|]. right. split; auto. split; auto. rewrite X, X'.
        apply rnd_mono. destruct (Hm (fst pt) (snd pt)) as [_ [M0|M1]]; [rewrite M0; lra|].
        apply Rmult_le_compat_l; [lra|]. apply Br; [|lra]. unfold l in I. apply in_indices in I. exact I.
      - rewrite !nth_overflow by (rewrite map_length; auto). split; auto. split; auto. right. repeat split. lra. }
    destruct (carry_below q (map (product a) l) (map (product a') l)) as (_ & _ & [Bad|(_ & _ & Good)]); try (intros k; apply K); auto.
    rewrite Bad in F'. discriminate F'. }
  unfold roi_sum_f. fold (light np_sum m a). fold (light np_sum m a').
  rewrite !fle_val by auto. change (fval fzero) with 0. destruct eps_val as [_ Ve]. pose proof (bpow_gt_0 radix2 (-52)).
  destruct (Rle_bool_spec (fval (light np_sum m a)) 0), (Rle_bool_spec (fval (light np_sum m a')) 0); lra.
Qed.
End Light.
