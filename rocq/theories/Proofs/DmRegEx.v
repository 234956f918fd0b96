(** Concrete registrations. *)
From Coq Require Import ZArith Bool List String Reals Lra Lia.
From Verif.Base Require Import Py Arr Vec Sums Lstsq Trig.
From Verif.Model Require Import Math Noll Fits Shapes PadCrop Dm Yaml DarkHole PsfFit PupilUtil Unwrap Occastro DmReg.
From Verif.Spec Require Import FitsSpec DmSpec DarkHoleSpec PsfFitSpec PupilUtilSpec UnwrapSpec DmRegSpec.
From Verif.Proofs Require FresnelP.
From Verif.Proofs Require Import PadCropP FitsP DmP ShapesP DarkHoleP PsfFitP UnwrapP QuadFitP PupilUtilC PupilUtilL OccastroP DmRegP DmRegQ.
Import ListNotations.
Open Scope string_scope.
Open Scope Z_scope.

(** A 5 by 5 mirror with one pixel per actuator and pixel-sized influence functions. *)
Definition inf1 : arr R := Arr 1 1 (fun _ _ => 1%R).
Definition gain1 : arr R := afull 5 5 1%R.
Definition dm5 : dm_data := DmData gain1 inf1 5 1 1 1.
Definition getdata5 : getdata_fun := fun v => match v with YStr s => if (s =? "g")%string then Ok gain1 else Ok inf1 | _ => Err (Custom "OSError") end.
Lemma getdata5_wf v a : getdata5 v = Ok a -> wf a.
Proof. unfold getdata5. destruct v; try discriminate. destruct (s =? "g")%string; intros [= <-]; split; cbn; lia. Qed.
Definition dmr5 : yval := YDict [("inffn", YStr "i"); ("nact", YInt 5); ("ppact_d", YInt 1); ("ppact_cx", YReal 1); ("ppact_cy", YReal 1);
  ("flipx", YBool false); ("thact", YReal 0)].
Definition dmy5 : yval := YDict [("voltages", YDict [("gainfn", YStr "g")]); ("registration", dmr5)].
Definition dmv5 : yval := YDict [("dms", YDict [("DM1", dmy5)])].
Lemma reg5 : registration_of dmv5 1 = Ok (dmy5, dmr5). Proof. reflexivity. Qed.
Lemma read5 : read_dm getdata5 dmy5 dmr5 = Ok dm5.
Proof.
  unfold read_dm.
  change (item dmy5 "voltages") with (@Ok yval (YDict [("gainfn", YStr "g")])). cbn [bind].
  change (item (YDict [("gainfn", YStr "g")]) "gainfn") with (@Ok yval (YStr "g")). cbn [bind].
  change (getdata5 (YStr "g")) with (@Ok (arr R) gain1). cbn [bind].
  change (item dmr5 "inffn") with (@Ok yval (YStr "i")). cbn [bind]. change (getdata5 (YStr "i")) with (@Ok (arr R) inf1). cbn [bind].
  change (item dmr5 "nact") with (@Ok yval (YInt 5)). cbn [bind]. change (positive_int_ (YInt 5)) with (@Ok Z 5). cbn [bind].
  change (item dmr5 "ppact_d") with (@Ok yval (YInt 1)). cbn [bind]. change (positive_int_ (YInt 1)) with (@Ok Z 1). cbn [bind].
  change (item dmr5 "ppact_cx") with (@Ok yval (YReal 1)). cbn [bind]. change (item dmr5 "ppact_cy") with (@Ok yval (YReal 1)).
  assert (P : positive_scalar_ (YReal 1) = Ok 1%R) by (apply positive_ok; split; [constructor|lra]).
  rewrite P. cbn [bind]. rewrite P. reflexivity.
Qed.
Lemma sup5 d i j : nr d = 5 -> nc d = 5 -> 0 <= i < 5 -> 0 <= j < 5 -> superposition 5 1 d inf1 i j = at2 d i j.
Proof.
  intros R C Hi Hj. unfold superposition. change ((nr inf1 - 1) / 2) with 0. 
  rewrite (rsum2_ext _ (fun a b => if (a =? i) && (b =? j) then at2 d a b else 0)%R).
  - rewrite rsum2_pick. replace ((0 <=? i) && (i <? 5) && (0 <=? j) && (j <? 5)) with true; [reflexivity|].
    symmetry. rewrite !andb_true_iff, !Z.leb_le, !Z.ltb_lt. lia.
  - intros a b Ha Hb. destruct (Z.eqb_spec a i) as [->|N]; [destruct (Z.eqb_spec b j) as [->|N]|]; cbn [andb].
    + rewrite at0_in; [cbn; ring|]. split; cbn; lia.
    + rewrite at0_out; [ring|]. intros [? ?]. cbn in *. lia.
    + rewrite at0_out; [ring|]. intros [? ?]. cbn in *. lia.
Qed.
Lemma args5 n m d : 0 < n -> 0 < m -> nr d = 5 -> nc d = 5 -> dm_args n m d 5 inf1 1 1 1.
Proof. intros. unfold dm_args. repeat split; cbn; auto; try lia; lra. Qed.
Lemma ref5 n m d : 0 < n <= 5 -> 0 < m <= 5 -> nr d = 5 -> nc d = 5 -> exists out, dmhtoph ops_ref n m d 5 inf1 1 1 1 0 0 0 false = Ok out /\
  nr out = n /\ nc out = m /\ forall i j, in_arr out i j -> at2 out i j = at2 d (2 + (i - n / 2)) (2 + (j - m / 2)).
Proof.
  intros Hn Hm R C. destruct ops_ref_ok as (I & Sp & _ & St).
  destruct (dmhtoph_defined ops_ref n m d 5 inf1 1 1 1 0 0 0 false Sp) as [out E]; [apply args5; lia|cbn; lia|].
  exists out. split; [exact E|]. apply dmhtoph_design in E as (N1 & N2 & V); [|split; cbn; lia|auto|auto|exists 2; reflexivity].
  split; [auto|]. split; [auto|]. intros i j B. rewrite V by auto. cbn zeta. change (((5 - 1) * 1 + nr inf1 - 1) / 2) with 2.
  destruct B as [B1 B2]. apply sup5; auto.
  - pose proof (Z.div_mod n 2 ltac:(lia)). pose proof (Z.mod_pos_bound n 2 ltac:(lia)). lia.
  - pose proof (Z.div_mod m 2 ltac:(lia)). pose proof (Z.mod_pos_bound m 2 ltac:(lia)). lia.
Qed.

(** Operations that scale the surface by a function of the clocking and of the distance moved. *)
Definition ops_scale (f : R -> R) : scipy_ops :=
  ScipyOps (sp_interp ops_ref) (fun a t => amap (Rmult (f (- t)%R)) a) (fun a dy dx => amap (Rmult (1 + dx ^ 2 + dy ^ 2)%R) a).
Lemma ops_scale_shape f : shape_preserving (ops_scale f).
Proof. split; cbn; auto. Qed.
Lemma surf_scale f d x y c : nr d = 5 -> nc d = 5 ->
  exists out, dmhtoph (ops_scale f) 3 3 d 5 inf1 1 1 1 x y c false = Ok out /\ nr out = 3 /\ nc out = 3 /\
    forall i j, in_arr out i j -> at2 out i j = ((1 + x ^ 2 + y ^ 2) * f c * at2 d (1 + i) (1 + j))%R.
Proof.
  intros R C. destruct (ref5 3 3 d ltac:(lia) ltac:(lia) R C) as (o0 & E0 & A1 & A2 & V0).
  destruct (dmhtoph_defined (ops_scale f) 3 3 d 5 inf1 1 1 1 x y c false (ops_scale_shape f)) as [out E]; [apply args5; lia|cbn; lia|].
  exists out. assert (W : wf inf1) by (split; cbn; lia).
  pose proof (dmhtoph_shape _ _ _ _ _ _ _ _ _ _ _ _ _ _ W (ops_scale_shape f) E) as [N1 N2].
  split; [auto|]. split; [auto|]. split; [auto|]. intros i j B. 
  assert (B0 : in_arr o0 i j) by (destruct B; split; lia). specialize (V0 i j B0).
  replace (2 + (i - 3 / 2)) with (1 + i) in V0 by (change (3 / 2) with 1; ring). replace (2 + (j - 3 / 2)) with (1 + j) in V0 by (change (3 / 2) with 1; ring). 
  rewrite <- V0.
  apply dmhtoph_ok in E as (_ & _ & _ & _ & _ & P); auto. apply dmhtoph_ok in E0 as (_ & _ & _ & _ & _ & P0); auto.
  cbn [ops_scale sp_shift sp_rotate ops_ref] in P, P0.
  set (n9 := nxyres 5 (nr inf1) 1 1 1) in *.
  assert (K : 0 <= n9) by (apply le_IZR; eapply Rle_trans; [|apply nxyres_ge]; pose proof sqrt2_ge1; pose proof (Rmax_l 1 1); cbn; nra).
  apply pad_crop_inv in P as (h & w & Q & _ & _ & _ & _ & P); [|split; cbn; auto]. injection Q as <- <-.
  apply pad_crop_inv in P0 as (h & w & Q & _ & _ & _ & _ & P0); [|split; cbn; auto]. injection Q as <- <-.
  rewrite P, P0 by (destruct B; lia). rewrite Ropp_involutive. cbn [amap nr nc resampled].
  unfold in_arrb. cbn [nr nc amap resampled]. 
  destruct ((0 <=? i - 3 / 2 + n9 / 2) && (i - 3 / 2 + n9 / 2 <? n9) && (0 <=? j - 3 / 2 + n9 / 2) && (j - 3 / 2 + n9 / 2 <? n9)); [|ring].
  cbn [at2 amap]. rewrite Rmult_assoc. f_equal.
Qed.

Definition one3 : arr R := afull 3 3 1%R.
Definition zero3 : arr R := afull 3 3 0%R.
Definition poke5 : arr R := Arr 5 5 (fun i j => if (i =? 2) && (j =? 2) then 1%R else 0%R).
Lemma one3_bool : bool_mask one3. Proof. intros i j _. right. reflexivity. Qed.
Lemma rsum_three f : rsum f 3 = (f 0%Z + f 1%Z + f 2%Z)%R.
Proof. change 3 with (0 + 1 + 1 + 1). rewrite !rsum_succ by lia. change (rsum f 0) with 0%R. cbn [Z.add Pos.add]. rewrite Rplus_0_l. reflexivity. Qed.
Ltac nine_sum := unfold rsum2; rewrite ?rsum_three; cbn [Z.eqb Pos.eqb andb]; try field.
Ltac nine := repeat match goal with H : 0 <= ?i < 3 |- _ => assert (i = 0 \/ i = 1 \/ i = 2) as [-> | [-> | ->]] by lia; clear H end.
Lemma flat9 lstsq a k w : is_lstsq_oracle lstsq -> nr a = 3 -> nc a = 3 ->
  (forall i j, in_arr a i j -> at2 a i j = (k * if (i =? 1)%Z && (j =? 1)%Z then 1 else 0)%R) ->
  remove_piston_tip_tilt lstsq (amap (fun v => v * 2)%R a) one3 = Ok w -> nr w = 3 /\ nc w = 3 /\
  forall i j, 0 <= i < 3 -> 0 <= j < 3 -> at2 w i j = (k * if (i =? 1)%Z && (j =? 1)%Z then 16 / 9 else - (2 / 9))%R.
Proof.
  intros O R C V E. destruct (ptt_spec lstsq O (amap (fun v => v * 2)%R a) one3) as (o & E' & N1 & N2 & _ & (p & q & r & P) & M0 & M1 & M2);
    [apply same_shape_iff; cbn; auto|apply one3_bool|]. rewrite E in E'. injection E' as <-. cbn in N1, N2. split; [lia|]. split; [lia|]. intros i j Hi Hj.
  apply (ptt_unique one3 (at2 w) (fun i j => k * if (i =? 1)%Z && (j =? 1)%Z then 16 / 9 else - (2 / 9))%R p q (r - k * (2 / 9))); auto.
  - intros i' j' I N. rewrite P by auto. cbn [amap at2]. rewrite V by (unfold in_arr in *; cbn in *; lia).
    destruct ((i' =? 1) && (j' =? 1)); unfold plane_at; field.
  - change (one3) with (ones 3). rewrite ones_masked. nine_sum.
  - change (one3) with (ones 3). rewrite ones_masked. nine_sum.
  - change (one3) with (ones 3). rewrite ones_masked. nine_sum.
  - split; cbn; lia.
  - cbn. lra.
Qed.
Definition rad5 : arr R := amap2 (fun v g => v / (2 * PI) * (2 * PI) * g)%R poke5 gain1.
Lemma rad5_ok : volts_to_dmh gain1 poke5 (2 * PI) = Ok rad5.
Proof.
  unfold volts_to_dmh. rewrite (proj2 (FresnelP.pos_real_iff _)) by (pose proof PI_RGT_0; lra). reflexivity.
Qed.
Lemma rad5_at i j : at2 rad5 i j = at2 poke5 i j.
Proof. cbn. pose proof PI_RGT_0. field. lra. Qed.
Lemma meas_zero lstsq : is_lstsq_oracle lstsq -> exists m, measured lstsq zero3 zero3 one3 = Ok m /\ nr m = 3 /\ nc m = 3 /\
  forall i j, 0 <= i < 3 -> 0 <= j < 3 -> at2 m i j = 0%R.
Proof.
  intros O. unfold measured. set (d := amap wrap_angle _).
  destruct (ptt_plane_zero lstsq O d one3 0 0 0) as (m & E & Z0); [reflexivity|apply one3_bool| |].
  - intros i j _ _. unfold d, plane_at. cbn. rewrite wrap_id; [ring|]. pose proof PI_RGT_0. lra.
  - exists m. split; [exact E|]. destruct (ptt_spec lstsq O d one3) as (o & E' & N1 & N2 & _); [reflexivity|apply one3_bool|].
    rewrite E in E'. injection E' as <-. cbn in N1, N2. split; [lia|]. split; [lia|]. intros i j Hi Hj. apply Z0. split; auto.
Qed.
Section Poke.
Variables (f : R -> R) (lstsq : lstsq_fun) (meas : arr R).
Hypotheses (O : is_lstsq_oracle lstsq) (Hf : forall c, (0 < f c)%R).
Hypothesis Hm : forall i j, 0 <= i < 3 -> 0 <= j < 3 -> at2 meas i j = 0%R.
Lemma surf_poke x y c : exists s, dmhtoph (ops_scale f) 3 3 rad5 5 inf1 1 1 1 x y c false = Ok s /\ nr s = 3 /\ nc s = 3 /\
  forall i j, in_arr s i j -> at2 s i j = ((1 + x ^ 2 + y ^ 2) * f c * if (i =? 1)%Z && (j =? 1)%Z then 1 else 0)%R.
Proof.
  destruct (surf_scale f rad5 x y c eq_refl eq_refl) as (s & E & N1 & N2 & V). exists s. do 3 (split; [assumption|]). intros i j [Hi Hj].
  rewrite V by (split; auto). rewrite rad5_at. rewrite N1 in Hi. rewrite N2 in Hj. f_equal. nine; reflexivity.
Qed.
Lemma k_pos x y c : (0 < (1 + x ^ 2 + y ^ 2) * f c)%R.
Proof. apply Rmult_lt_0_compat; [nra|apply Hf]. Qed.
Lemma ocost_poke c x y : offset_cost lstsq (ops_scale f) one3 meas rad5 dm5 false 3 3 c x y = Ok (32 / 9 * ((1 + x ^ 2 + y ^ 2) * f c))%R.
Proof.
  unfold offset_cost. cbn [dm5 d_nact d_inf d_ppd d_cx d_cy]. destruct (surf_poke x y c) as (s & Es & N1 & N2 & V). rewrite Es. cbn [bind].
  destruct (ptt_spec lstsq O (amap (fun v => v * 2)%R s) one3) as (w & Ew & _); [apply same_shape_iff; cbn; lia|apply one3_bool|].
  pose proof (flat9 _ _ _ _ O N1 N2 V Ew) as (W1 & W2 & W). rewrite Ew. cbn [bind]. f_equal. unfold abs_misfit. cbn [one3 afull nr nc at2].
  pose proof (k_pos x y c) as K. set (k := ((1 + x ^ 2 + y ^ 2) * f c)%R) in *.
  rewrite (rsum2_ext _ (fun i j => k * if (i =? 1)%Z && (j =? 1)%Z then 16 / 9 else 2 / 9)%R).
  - nine_sum.
  - intros i j Hi Hj. rewrite Hm, W by auto. rewrite Rmult_1_l, Rminus_0_l, Rabs_Ropp, Rabs_mult, (Rabs_pos_eq k) by lra.
    f_equal. destruct ((i =? 1) && (j =? 1)); [apply Rabs_pos_eq; lra|rewrite Rabs_Ropp; apply Rabs_pos_eq; lra].
Qed.
Lemma ccost_poke x y c : clock_cost (ops_scale f) one3 meas rad5 dm5 false 3 3 x y c = Ok ((1 + x ^ 2 + y ^ 2) * f c)%R.
Proof.
  unfold clock_cost. cbn [dm5 d_nact d_inf d_ppd d_cx d_cy]. destruct (surf_poke x y c) as (s & Es & N1 & N2 & V). rewrite Es. cbn [bind].
  f_equal. unfold abs_misfit. cbn [one3 afull nr nc at2].
  pose proof (k_pos x y c) as K. set (k := ((1 + x ^ 2 + y ^ 2) * f c)%R) in *.
  rewrite (rsum2_ext _ (fun i j => k * if (i =? 1)%Z && (j =? 1)%Z then 1 else 0)%R).
  - nine_sum.
  - intros i j Hi Hj. rewrite Hm, V by (auto; split; lia). rewrite Rmult_1_l, Rminus_0_l, Rabs_Ropp, Rabs_mult, (Rabs_pos_eq k) by lra.
    f_equal. destruct ((i =? 1) && (j =? 1)); [apply Rabs_pos_eq; lra|apply Rabs_R0].
Qed.
End Poke.

(** A clocking cost with its optimum at 1/4. *)
Definition f4 (t : R) : R := ((t - / 4) ^ 2 + 15 / 16)%R.
Lemma f4_pos t : (0 < f4 t)%R. Proof. unfold f4. nra. Qed.
Definition fit5 (both ioff iclock : Z) (shrink : R) : yval :=
  YDict [("nIterBoth", YInt both); ("offsetMax", YReal 1); ("nOffset", YInt 3); ("nIterOffset", YInt ioff); ("shrinkFac", YReal shrink);
    ("clockMaxDeg", YReal 1); ("nClock", YInt 3); ("nIterClock", YInt iclock)].
Lemma fit5_read both ioff iclock shrink : 0 < both -> 0 < ioff -> 0 < iclock -> (0 < shrink <= 1)%R ->
  read_fit_params (fit5 both ioff iclock shrink) = Ok (FitParams both 1 3 ioff shrink 1 3 iclock).
Proof.
  intros H1 H2 H3 H4. apply read_fit_ok. unfold describes_fit, has_int, has_real. cbn [p_both p_omax p_noff p_ioff p_shrink p_cmax p_nclock p_iclock].
  repeat (match goal with |- _ /\ _ => split end); try lia; try lra;
    (eexists; split; [apply item_has; reflexivity|constructor]).
Qed.
Lemma angle3 w i : 0 <= i < 3 -> clock_angle w 3 i = (w * (IZR i - 1))%R.
Proof. intros H. unfold clock_angle. change (3 =? 1) with false. cbv iota. field. Qed.
(** One translation pass on a bowl returns its centre. *)
Lemma offset_bowl lstsq cost shrink k f0 x y : is_lstsq_oracle lstsq -> (1 <= k)%R -> f0 <> 0%R -> 
  (forall u v, cost u v = Ok (k * (1 + u ^ 2 + v ^ 2))%R) -> offset_loop lstsq cost 3 1 1 shrink 1 0 f0 x y = Ok (1%R, 0%R, 0%R).
Proof.
  intros O Hk Hf HC. cbn [offset_loop]. change (Nat.eqb 0 0 && (1 <? 1)) with false. cbv iota. change (Z.to_nat 3) with 3%nat.
  set (v := Vec 3 _). destruct (fill_mat_ok (fun iy ix => cost (x + vat v ix)%R (y + vat v iy)%R) (fun iy ix => k * (1 + (x + vat v ix) ^ 2 + (y + vat v iy) ^ 2))%R 3
    (fun i j => HC _ _) 3 0) as (m & -> & V). cbn [bind].
  rewrite (opt2_exact lstsq O v v (Arr 3 3 m) (afull 3 3 1%R) k 0 k (2 * k * x) (2 * k * y) (k * (1 + x ^ 2 + y ^ 2))).
  - destruct (Rlt_dec _ _) as [L|_].
    { exfalso. replace (0 ^ 2 - 4 * k * k)%R with (- (4 * k * k))%R in L by ring. rewrite Rabs_Ropp, Rabs_pos_eq in L by nra.
      assert (/ 10 ^ 15 <= 1)%R by (rewrite <- Rinv_1; apply Rinv_le_contravar; [lra|apply pow_R1_Rle; lra]). nra. }
    destruct (Rlt_dec _ _) as [L|_].
    { exfalso. rewrite Rabs_pos_eq in L by lra.
      assert (/ 10 ^ 15 <= 1)%R by (rewrite <- Rinv_1; apply Rinv_le_contravar; [lra|apply pow_R1_Rle; lra]). nra. }
    cbn [bind fst snd pow]. f_equal. f_equal; [f_equal|]; field; nra.
  - apply same_shape_iff; cbn; auto.
  - reflexivity.
  - reflexivity.
  - intros i j _. right. reflexivity.
  - unfold v. rewrite offset_vec. apply angles_unisolvent; [lia|lra].
  - intros i j [Hi Hj] _. cbn [afull nr nc at2] in *. rewrite V by lia. unfold quad2. ring.
Qed.
(** A first clocking pass that takes the middle trial, and a fitted pass. *)
Lemma clock_best lstsq1 cost G shrink k c : (forall c, cost c = Ok (G c)) -> (G c < G (c - 1) /\ G c <= G (c + 1))%R ->
  clock_loop lstsq1 cost 3 2 1 shrink (S k) 0 c = clock_loop lstsq1 cost 3 2 1 shrink k 1 c.
Proof.
  intros HC [L1 L2]. cbn [clock_loop]. change (Nat.eqb 0 0 && (1 <? 2)) with true. cbv iota. change (Z.to_nat 3) with 3%nat. rewrite clock_vec.
  destruct (fill_def (fun i => cost (shrink ^ 0 * vat (Vec 3 (clock_angle 1 3)) i + c)%R) 3 0) as [cv Ec]; [intros; rewrite HC; eauto|].
  assert (V : forall i, 0 <= i < 3 -> cv i = G (c + (IZR i - 1))%R).
  { intros i Hi. pose proof (fill_ok _ _ _ _ Ec i ltac:(lia)) as F. cbv beta in F. rewrite HC in F. injection F as <-. cbn [vat pow]. rewrite angle3 by auto. f_equal. ring. }
  rewrite Ec. cbn [bind]. unfold argmin2. destruct (argmax2_def (amap Ropp (Arr 1 3 (fun _ i => cv i)))) as [b Eb]; [cbn; lia..|].
  rewrite Eb. cbn [bind]. apply argmax2_ok in Eb. cbn in Eb. destruct Eb as (I & J & M & Ls).
  assert (Q : snd b = 1).
  { pose proof (M 0 1 ltac:(lia) ltac:(lia)) as Q1. pose proof (Ls 0 1 ltac:(lia) ltac:(lia)) as Q2.
    rewrite !V in Q1, Q2 by lia. replace (c + (1 - 1))%R with c in * by ring.
    assert (snd b = 0 \/ snd b = 1 \/ snd b = 2) as [Z0|[Z0|Z0]] by lia; rewrite Z0 in *; auto; exfalso.
    - replace (c + (0 - 1))%R with (c - 1)%R in * by ring. lra.
    - assert (B : before 0 1 (fst b) 2) by (unfold before; lia). specialize (Q2 B). replace (c + (2 - 1))%R with (c + 1)%R in * by ring. lra. }
  rewrite Q. cbn [vat]. rewrite angle3 by lia. f_equal. ring.
Qed.
Lemma clock_fit lstsq1 cost G n iter shrink c a C v : is_lstsq_oracle lstsq1 -> (forall c, cost c = Ok (G c)) -> (n <=? 1 = true \/ (0 < iter)%nat) ->
  (forall t, G t = (a * (t - C) ^ 2 + v)%R) -> (/ 2 ^ 52 <= Rabs (a * (shrink ^ iter) ^ 2))%R ->
  clock_loop lstsq1 cost 3 n 1 shrink 1 iter c = Ok (c + (C - c) / shrink ^ iter)%R.
Proof.
  intros O HC Hn HG Ha. cbn [clock_loop]. replace (Nat.eqb iter 0 && (1 <? n)) with false.
  2:{ symmetry. apply andb_false_iff. destruct Hn as [Hn|Hn]; [right; apply Z.ltb_ge; apply Z.leb_le; auto|left; apply Nat.eqb_neq; lia]. }
  change (Z.to_nat 3) with 3%nat. rewrite clock_vec.
  destruct (fill_def (fun i => cost (shrink ^ iter * vat (Vec 3 (clock_angle 1 3)) i + c)%R) 3 0) as [cv Ec]; [intros; rewrite HC; eauto|].
  rewrite Ec. cbn [bind]. set (s := (shrink ^ iter)%R) in *.
  assert (Hs : (a * s ^ 2 <> 0)%R). { intros Z0. rewrite Z0, Rabs_R0 in Ha. assert (0 < / 2 ^ 52)%R by (apply Rinv_0_lt_compat, pow_lt; lra). lra. }
  rewrite (opt1_exact lstsq1 O _ _ (a * s ^ 2) (2 * a * s * (c - C)) (a * (c - C) ^ 2 + v)); [|reflexivity|apply angles_distinct; [lia|lra]|].
  - destruct (Rlt_dec _ _); [lra|]. cbn [bind]. f_equal. field. split; intros Z0; apply Hs; rewrite Z0; ring.
  - intros i Hi. cbn [vlen vat] in *. pose proof (fill_ok _ _ _ _ Ec i ltac:(lia)) as F. cbv beta in F. rewrite HC in F. injection F as <-. cbn [vat]. rewrite HG. ring.
Qed.
Lemma run5 : calc_translation_clocking lstsq_ref lstsq_ref (ops_scale f4) getdata5 one3 zero3 one3 zero3 one3 1 poke5 0 0 dmv5 (fit5 1 1 2 (/ 2)) (2 * PI)
  = Ok (0, 0, / 2)%R.
Proof.
  unfold calc_translation_clocking. rewrite (proj2 (maps_ok _ _ _ _ _ _ _ _)).
  2:{ unfold maps_valid. pose proof PI_RGT_0. repeat split; auto. lra. }
  cbn [bind]. rewrite fit5_read by (lia || lra). cbn [bind]. rewrite reg5. cbn [bind fst snd].
  change (item dmr5 "flipx") with (@Ok yval (YBool false)). cbn [bind]. rewrite read5. cbn [bind].
  change (item dmr5 "thact") with (@Ok yval (YReal 0)). cbn [bind]. change (real_scalar_ (YReal 0)) with (@Ok R 0%R). cbn [bind].
  change (d_gain dm5) with gain1. rewrite rad5_ok. cbn [bind]. destruct (meas_zero _ (@lstsq_ref_ok (Z * Z))) as (meas & Em & _ & _ & Z0). rewrite Em. cbn [bind].
  cbn [truthy p_both]. change (nr one3) with 3. change (nc one3) with 3. change (Z.to_nat 1) with 1%nat. cbn [both_loop p_noff p_ioff p_omax p_shrink p_nclock p_iclock p_cmax].
  change (Z.to_nat 1) with 1%nat. change (Z.to_nat 2) with 2%nat.
  rewrite (offset_bowl _ _ _ (32 / 9 * f4 0)); [|apply lstsq_ref_ok|unfold f4; lra|lra|].
  2:{ intros u v. rewrite (ocost_poke f4 _ _ lstsq_ref_ok f4_pos Z0). f_equal. ring. }
  cbn [bind]. rewrite (clock_best _ _ f4).
  - rewrite (clock_fit _ _ f4 2 1 (/ 2) 0 1 (/ 4) (15 / 16)); [|apply lstsq_ref_ok| |right; lia|unfold f4; intros; ring|].
    + cbn [bind pow]. f_equal. f_equal. field.
    + intros c. rewrite (ccost_poke f4 _ f4_pos Z0). f_equal. ring.
    + rewrite Rabs_pos_eq by (cbn; lra). replace (1 * ((/ 2) ^ 1) ^ 2)%R with (/ 2 ^ 2)%R by (field). apply Rinv_le_contravar; [lra|]. apply Rle_pow; [lra|lia].
  - intros c. rewrite (ccost_poke f4 _ f4_pos Z0). f_equal. ring.
  - unfold f4. lra.
Qed.
Lemma run5_single : calc_translation_clocking lstsq_ref lstsq_ref (ops_scale f4) getdata5 one3 zero3 one3 zero3 one3 1 poke5 0 0 dmv5 (fit5 1 1 1 (/ 2)) (2 * PI)
  = Ok (0, 0, / 4)%R.
Proof.
  unfold calc_translation_clocking. rewrite (proj2 (maps_ok _ _ _ _ _ _ _ _)).
  2:{ unfold maps_valid. pose proof PI_RGT_0. repeat split; auto. lra. }
  cbn [bind]. rewrite fit5_read by (lia || lra). cbn [bind]. rewrite reg5. cbn [bind fst snd].
  change (item dmr5 "flipx") with (@Ok yval (YBool false)). cbn [bind]. rewrite read5. cbn [bind].
  change (item dmr5 "thact") with (@Ok yval (YReal 0)). cbn [bind]. change (real_scalar_ (YReal 0)) with (@Ok R 0%R). cbn [bind].
  change (d_gain dm5) with gain1. rewrite rad5_ok. cbn [bind]. destruct (meas_zero _ (@lstsq_ref_ok (Z * Z))) as (meas & Em & _ & _ & Z0). rewrite Em. cbn [bind].
  cbn [truthy p_both]. change (nr one3) with 3. change (nc one3) with 3. change (Z.to_nat 1) with 1%nat. cbn [both_loop p_noff p_ioff p_omax p_shrink p_nclock p_iclock p_cmax].
  change (Z.to_nat 1) with 1%nat.
  rewrite (offset_bowl _ _ _ (32 / 9 * f4 0)); [|apply lstsq_ref_ok|unfold f4; lra|lra|].
  2:{ intros u v. rewrite (ocost_poke f4 _ _ lstsq_ref_ok f4_pos Z0). f_equal. ring. }
  cbn [bind]. rewrite (clock_fit _ _ f4 1 0 (/ 2) 0 1 (/ 4) (15 / 16)); [|apply lstsq_ref_ok| |left; reflexivity|unfold f4; intros; ring|].
  - cbn [bind pow]. f_equal. f_equal. field.
  - intros c. rewrite (ccost_poke f4 _ f4_pos Z0). f_equal. ring.
  - rewrite Rabs_pos_eq by (cbn; lra). replace (1 * ((/ 2) ^ 0) ^ 2)%R with (/ 1)%R by (cbn; field). apply Rinv_le_contravar; [lra|]. apply pow_R1_Rle; lra.
Qed.
(** The misfits of that run, at every trial. *)
Lemma misfits5 meas : (forall i j, 0 <= i < 3 -> 0 <= j < 3 -> at2 meas i j = 0%R) -> forall x y c v,
  surface_misfit (ops_scale f4) one3 meas rad5 dm5 false 3 3 x y c v <-> v = ((1 + x ^ 2 + y ^ 2) * f4 c)%R.
Proof.
  intros Z0 x y c v. pose proof (ccost_poke f4 meas f4_pos Z0 x y c) as C. unfold clock_cost in C. unfold surface_misfit, simulated, l1.
  destruct (dmhtoph _ _ _ _ _ _ _ _ _ _ _ _ _) as [s|e] eqn:E; [|discriminate]. cbn [bind] in C. injection C as C. unfold abs_misfit in C. split.
  - intros (s' & [= <-] & ->). exact C.
  - intros ->. exists s. split; [reflexivity|]. symmetry. exact C.
Qed.

(** ** A half turn *)
Definition rot180 (a : arr R) : arr R := Arr (nr a) (nc a) (fun i j => at2 a (nr a - 1 - i) (nc a - 1 - j)).
Definition ops_turn : scipy_ops :=
  ScipyOps (sp_interp ops_ref) (fun a t => if Req_EM_T (Rabs t) 180 then rot180 a else a) (fun a _ _ => a).
Lemma ops_turn_ok : interpolates ops_turn /\ shape_preserving ops_turn /\ linear_ops ops_turn /\ still ops_turn.
Proof.
  destruct ops_ref_ok as (I & Sp & (L1 & L2 & L3) & St). split; [exact I|]. split; [|split; [split; [exact L1|split; [|exact L3]]|]].
  - split; cbn; intros; [|auto]. destruct (Req_EM_T (Rabs t) 180); auto.
  - intros t. cbn. destruct (Req_EM_T (Rabs t) 180) as [_|_]; [|exact (L2 0%R)].
    split; [cbn; auto|]. intros x y a b d (R1 & R2 & R3 & R4 & V). unfold rot180, lin_rel. cbn. repeat split; auto. intros i j [Hi Hj]. cbn in *. rewrite V by (split; lia).
    rewrite ?R1, ?R2, ?R3, ?R4. reflexivity.
  - split; intros; cbn; [|apply aeq_refl]. rewrite Rabs_R0. destruct (Req_EM_T 0 180); [lra|apply aeq_refl].
Qed.
Definition row5 (j : Z) : R := if j =? 0 then (21 / 10)%R else if j =? 1 then (8 / 10)%R else if j =? 2 then 0%R else if j =? 3 then (- (8 / 10))%R else (- (21 / 10))%R.
Definition kink5 (j : Z) : R := if j =? 0 then (2 / 10)%R else if j =? 1 then (- (4 / 10))%R else if j =? 2 then 0%R else if j =? 3 then (4 / 10)%R else (- (2 / 10))%R.
Definition bent5 : arr R := Arr 5 5 (fun i j => if i =? 2 then row5 j else 0%R).
Definition one15 : arr R := afull 1 5 1%R.
Definition zero15 : arr R := afull 1 5 0%R.
Definition kink15 : arr R := Arr 1 5 (fun _ j => kink5 j).
Lemma one15_bool : bool_mask one15. Proof. intros i j _. right. reflexivity. Qed.
Ltac five := repeat match goal with H : 0 <= ?j < 5 |- _ => assert (j = 0 \/ j = 1 \/ j = 2 \/ j = 3 \/ j = 4) as [-> | [-> | [-> | [-> | ->]]]] by lia; clear H end.
Lemma rsum_five f : rsum f 5 = (f 0%Z + f 1%Z + f 2%Z + f 3%Z + f 4%Z)%R.
Proof. change 5 with (0 + 1 + 1 + 1 + 1 + 1). rewrite !rsum_succ by lia. change (rsum f 0) with 0%R. cbn [Z.add Pos.add]. rewrite Rplus_0_l. reflexivity. Qed.
Lemma rsum_one f : rsum f 1 = f 0%Z.
Proof. change 1 with (0 + 1). rewrite !rsum_succ by lia. change (rsum f 0) with 0%R. rewrite Rplus_0_l. reflexivity. Qed.
Lemma masked15 f : masked_sum one15 f = (f 0%Z 0%Z + f 0%Z 1%Z + f 0%Z 2%Z + f 0%Z 3%Z + f 0%Z 4%Z)%R.
Proof.
  unfold masked_sum, rsum2. change (nr one15) with 1. change (nc one15) with 5. rewrite rsum_one, rsum_five. cbn [one15 afull at2].
  destruct (Req_EM_T 1 0); [lra|reflexivity].
Qed.
Lemma turn_straight : exists s, dmhtoph ops_turn 1 5 bent5 5 inf1 1 1 1 0 0 0 false = Ok s /\ nr s = 1 /\ nc s = 5 /\
  forall j, 0 <= j < 5 -> at2 s 0 j = row5 j.
Proof.
  destruct ops_turn_ok as (I & Sp & _ & St).
  destruct (dmhtoph_defined ops_turn 1 5 bent5 5 inf1 1 1 1 0 0 0 false Sp) as [out E]; [apply args5; cbn; lia|cbn; lia|].
  exists out. split; [exact E|]. apply dmhtoph_design in E as (N1 & N2 & V); [|split; cbn; lia|auto|auto|exists 2; reflexivity].
  split; [auto|]. split; [auto|]. intros j Hj. rewrite V by (split; lia). cbn zeta. change (((5 - 1) * 1 + nr inf1 - 1) / 2) with 2.
  change (5 / 2) with 2. change (1 / 2) with 0. rewrite sup5 by (auto; lia). replace (2 + (j - 2)) with j by lia. reflexivity.
Qed.
Lemma turn_half : exists s, dmhtoph ops_turn 1 5 bent5 5 inf1 1 1 1 0 0 180 false = Ok s /\ nr s = 1 /\ nc s = 5 /\
  forall j, 0 <= j < 5 -> at2 s 0 j = row5 (4 - j).
Proof.
  destruct turn_straight as (o0 & E0 & A1 & A2 & V0). destruct ops_turn_ok as (_ & Sp & _ & _).
  destruct (dmhtoph_defined ops_turn 1 5 bent5 5 inf1 1 1 1 0 0 180 false Sp) as [out E]; [apply args5; cbn; lia|cbn; lia|].
  exists out. assert (W : wf inf1) by (split; cbn; lia).
  pose proof (dmhtoph_shape _ _ _ _ _ _ _ _ _ _ _ _ _ _ W Sp E) as [N1 N2]. split; [auto|]. split; [auto|]. split; [auto|]. intros j Hj.
  rewrite <- (V0 (4 - j)) by lia.
  apply dmhtoph_ok in E as (_ & _ & _ & _ & _ & P); auto. apply dmhtoph_ok in E0 as (_ & _ & _ & _ & _ & P0); auto.
  cbn [ops_turn sp_shift sp_rotate] in P, P0. rewrite Rabs_Ropp, Rabs_R0 in P0. destruct (Req_EM_T 0 180) as [|_]; [lra|].
  rewrite Rabs_Ropp, Rabs_pos_eq in P by lra. destruct (Req_EM_T 180 180) as [_|N]; [|congruence].
  pose proof (nxyres_odd 5 (nr inf1) 1 1 1) as Od. set (n9 := nxyres 5 (nr inf1) 1 1 1) in *. set (s0 := resampled _ _ _ _ _ _ _) in *.
  assert (K : 0 <= n9) by (apply le_IZR; eapply Rle_trans; [|apply nxyres_ge]; pose proof sqrt2_ge1; pose proof (Rmax_l 1 1); cbn; nra).
  apply pad_crop_inv in P as (h & w & Q & _ & _ & _ & _ & P); [|split; cbn; auto]. injection Q as <- <-.
  apply pad_crop_inv in P0 as (h & w & Q & _ & _ & _ & _ & P0); [|split; cbn; auto]. injection Q as <- <-.
  rewrite P, P0 by lia. change (nr (rot180 s0)) with n9. change (nc (rot180 s0)) with n9. change (nr s0) with n9. change (nc s0) with n9.
  change (1 / 2) with 0. change (5 / 2) with 2. pose proof (Z.div_mod n9 2 ltac:(lia)) as Dv.
  unfold in_arrb. change (nr (rot180 s0)) with n9. change (nc (rot180 s0)) with n9. change (nr s0) with n9. change (nc s0) with n9.
  unfold rot180. cbn [at2]. change (nr s0) with n9. change (nc s0) with n9.
  replace (n9 - 1 - (0 - 0 + n9 / 2)) with (0 - 0 + n9 / 2) by lia. replace (n9 - 1 - (j - 2 + n9 / 2)) with (4 - j - 2 + n9 / 2) by lia.
  replace ((0 <=? 4 - j - 2 + n9 / 2) && (4 - j - 2 + n9 / 2 <? n9)) with ((0 <=? j - 2 + n9 / 2) && (j - 2 + n9 / 2 <? n9)).
  2:{ apply eq_true_iff_eq. rewrite !andb_true_iff, !Z.leb_le, !Z.ltb_lt. lia. }
  rewrite <- !andb_assoc.
  replace ((0 <=? 4 - j - 2 + n9 / 2) && (4 - j - 2 + n9 / 2 <? n9)) with ((0 <=? j - 2 + n9 / 2) && (j - 2 + n9 / 2 <? n9)).
  2:{ apply eq_true_iff_eq. rewrite !andb_true_iff, !Z.leb_le, !Z.ltb_lt. lia. }
  reflexivity.
Qed.
Lemma kink_meas lstsq : is_lstsq_oracle lstsq -> exists m, measured lstsq zero15 kink15 one15 = Ok m /\ nr m = 1 /\ nc m = 5 /\ forall j, 0 <= j < 5 -> at2 m 0 j = kink5 j.
Proof.
  intros O. unfold measured. set (d := amap wrap_angle _). pose proof PI_RGT_0. pose proof PI2_3_2.
  assert (D : forall j, 0 <= j < 5 -> at2 d 0 j = kink5 j).
  { intros j Hj. unfold d. cbn. rewrite Rminus_0_r. apply wrap_id. five; cbn; lra. }
  destruct (ptt_spec lstsq O d one15) as (m & E & N1 & N2 & _ & (p & q & r & P) & M0 & M1 & M2); [reflexivity|apply one15_bool|].
  exists m. split; [exact E|]. cbn in N1, N2. split; [auto|]. split; [auto|]. intros j Hj.
  apply (ptt_unique one15 (at2 m) (fun _ j => kink5 j) p q r); auto.
  - intros i' j' I N. rewrite P by auto. destruct I as [I1 I2]. cbn in I1, I2. replace i' with 0 by lia. rewrite D by auto. reflexivity.
  - rewrite masked15. cbn. field.
  - rewrite masked15. cbn. field.
  - rewrite masked15. cbn. field.
  - split; cbn; lia.
  - cbn. lra.
Qed.
Lemma kink_consistent s : (forall j, 0 <= j < 5 -> at2 s 0 j = row5 j) -> consistent_with zero15 kink15 one15 s.
Proof.
  intros V. exists 2%R, 0%R, (-4)%R. intros i j [Hi Hj] _. cbn in Hi, Hj. assert (i = 0) by lia. subst i. rewrite V by auto. unfold plane_at. pose proof PI2_3_2. pose proof PI_RGT_0.
  five; cbn; split; try field; lra.
Qed.
Lemma misfit15 a b : abs_misfit one15 a b = (Rabs (at2 a 0 0 - at2 b 0 0) + Rabs (at2 a 0 1 - at2 b 0 1) + Rabs (at2 a 0 2 - at2 b 0 2) + Rabs (at2 a 0 3 - at2 b 0 3) + Rabs (at2 a 0 4 - at2 b 0 4))%R.
Proof. unfold abs_misfit, rsum2. change (nr one15) with 1. change (nc one15) with 5. rewrite rsum_one, rsum_five. cbn [one15 afull at2]. ring. Qed.
Ltac rabs := repeat match goal with |- context [Rabs ?x] => first [rewrite (Rabs_pos_eq x) by lra | rewrite (Rabs_left x) by lra] end.
Lemma half_turn_better lstsq : is_lstsq_oracle lstsq -> exists s meas v v',
  simulated ops_turn dm5 bent5 1 5 false 0 0 0 s /\ consistent_with zero15 kink15 one15 s /\
  measured_phase lstsq zero15 kink15 one15 meas /\
  wavefront_misfit lstsq ops_turn one15 meas bent5 dm5 false 1 5 0 0 0 0 /\
  surface_misfit ops_turn one15 meas bent5 dm5 false 1 5 0 0 0 v /\
  surface_misfit ops_turn one15 meas bent5 dm5 false 1 5 0 0 180 v' /\ (v' < v)%R.
Proof.
  intros O. destruct turn_straight as (s & Es & N1 & N2 & V). destruct turn_half as (s' & Es' & N1' & N2' & V'). destruct (kink_meas lstsq O) as (m & Em & M1 & M2 & Vm).
  exists s, m, (62 / 10)%R, (54 / 10)%R. split; [exact Es|]. split; [apply kink_consistent; auto|]. split; [apply measured_ok; auto|]. split; [|split; [|split]].
  - destruct (ptt_spec lstsq O (amap (fun v => v * 2)%R s) one15) as (w & Ew & _); [apply same_shape_iff; cbn; lia|apply one15_bool|].
    exists s, w. split; [exact Es|]. split; [exact Ew|].
    assert (Q : wavefront_misfit lstsq ops_turn one15 m bent5 dm5 false 1 5 0 0 0 (abs_misfit one15 m w)) by (exists s, w; split; [exact Es|]; split; [exact Ew|reflexivity]).
    apply (consistent_zero _ _ _ _ _ _ _ _ _ _ _ _ _ zero15 kink15 s) in Q.
    + symmetry. exact Q.
    + exact O.
    + apply one15_bool.
    + apply same_shape_iff; cbn; lia.
    + apply measured_ok; auto.
    + exact Es.
    + apply kink_consistent; auto.
  - exists s. split; [exact Es|]. change (62 / 10 = abs_misfit one15 m s)%R. rewrite misfit15, !Vm, !V by lia. cbn. rabs. field.
  - exists s'. split; [exact Es'|]. change (54 / 10 = abs_misfit one15 m s')%R. rewrite misfit15, !Vm, !V' by lia. cbn. rabs. field.
  - lra.
Qed.
(** Rows and columns exchanged. *)
Lemma turn_column : exists s, dmhtoph ops_turn 5 1 bent5 5 inf1 1 1 1 0 0 0 false = Ok s /\ nr s = 5 /\ nc s = 1 /\ forall i j, in_arr s i j -> at2 s i j = 0%R.
Proof.
  destruct ops_turn_ok as (I & Sp & _ & St).
  destruct (dmhtoph_defined ops_turn 5 1 bent5 5 inf1 1 1 1 0 0 0 false Sp) as [out E]; [apply args5; cbn; lia|cbn; lia|].
  exists out. split; [exact E|]. apply dmhtoph_design in E as (N1 & N2 & V); [|split; cbn; lia|auto|auto|exists 2; reflexivity].
  split; [auto|]. split; [auto|]. intros i j B. rewrite V by auto. destruct B as [Hi Hj]. cbn zeta. change (((5 - 1) * 1 + nr inf1 - 1) / 2) with 2.
  change (5 / 2) with 2. change (1 / 2) with 0. rewrite sup5 by (auto; lia). replace (2 + (j - 0)) with 2 by lia. cbn. destruct (_ =? 2); reflexivity.
Qed.
Lemma scale_wrong lstsq : is_lstsq_oracle lstsq -> exists s meas v,
  simulated ops_turn dm5 bent5 1 5 false 0 0 0 s /\ consistent_with zero15 kink15 one15 s /\
  measured_phase lstsq zero15 kink15 one15 meas /\
  scale_misfit lstsq ops_turn one15 meas bent5 dm5 1 5 0 0 0 1 1 v /\ (0 < v)%R.
Proof.
  intros O. destruct turn_straight as (s & Es & N1 & N2 & V). destruct turn_column as (t & Et & T1 & T2 & Vt). destruct (kink_meas lstsq O) as (m & Em & M1 & M2 & Vm).
  exists s, m, (12 / 10)%R. split; [exact Es|]. split; [apply kink_consistent; auto|]. split; [apply measured_ok; auto|]. split; [|lra].
  set (c := Arr 1 5 (fun _ _ => 0%R)).
  destruct (ptt_plane_zero lstsq O c one15 0 0 0) as (w & Ew & Zw); [reflexivity|apply one15_bool|intros; cbn; unfold plane_at; ring|].
  exists t, c, w. cbn [dm5 d_nact d_inf d_ppd d_cx d_cy]. rewrite Rmult_1_l. split; [exact Et|]. split; [|split; [exact Ew|]].
  - split; [reflexivity|]. split; [reflexivity|]. intros i j [Hi Hj]. cbn in Hi, Hj. cbn [c at2]. 
    destruct (in_arrb _ _ _) eqn:B; [|reflexivity]. apply in_arrb_spec in B. cbn [amap at2]. rewrite Vt by exact B. ring.
  - change (12 / 10 = abs_misfit one15 m w)%R. rewrite misfit15, !Vm by lia. rewrite !Zw by (split; cbn; lia). cbn. rabs. field.
Qed.
