(** A concrete case for fit_z_induced_spm_shear: a square pupil and a poke of four pixels. *)
From Coq Require Import ZArith Bool List Reals Lra Lia String.
From Coquelicot Require Import Complex.
From Verif.Base Require Import Py Arr Vec Sums CSum Lstsq.
From Verif.Model Require Import Dm Yaml Math Noll Fits PadCrop PsfFit Unwrap PupilUtil PupilFit MaskFit.
From Verif.Spec Require Import FitsSpec PsfFitSpec UnwrapSpec PupilUtilSpec FitShapesSpec DmRegSpec MaskFitSpec.
From Verif.Proofs Require Import FitsP PsfFitP PsfFitEx UnwrapP UnwrapEx ConjugateEx FitShapesP MaskFitZ.
Import ListNotations.
Open Scope list_scope.
Open Scope Z_scope.

(** ** An 8 by 8 block whose first column is [c], in a 10 by 10 frame *)
Definition in_block (c i j : Z) : bool := (1 <=? i) && (i <? 9) && (c <=? j) && (j <? c + 8).
Definition block (c : Z) : arr bool := Arr 10 10 (in_block c).
Definition disk10 (c : Z) : arr R := Arr 10 10 (fun i j => if in_block c i j then 1%R else 0%R).
Lemma in_block_iff c i j : in_block c i j = true <-> 1 <= i < 9 /\ c <= j < c + 8.
Proof. unfold in_block. rewrite !andb_true_iff, !Z.leb_le, !Z.ltb_lt. lia. Qed.
Lemma on_block m c i j : 0 <= c <= 2 -> aeq m (block c) -> (on m (i, j) <-> 1 <= i < 9 /\ c <= j < c + 8).
Proof.
  intros Hc (M1 & M2 & M3). cbn [block nr nc] in M1, M2. unfold on. cbn [fst snd]. split.
  - intros [I V]. rewrite M3 in V by exact I. cbn [block at2] in V. apply in_block_iff, V.
  - intros H. assert (I : in_arr m i j) by (split; lia). split; [exact I|]. rewrite M3 by exact I. apply in_block_iff, H.
Qed.
Lemma block_joined m c : 0 <= c <= 2 -> aeq m (block c) -> one_piece m.
Proof.
  intros Hc M [i j] [i' j'] H H'. apply (on_block m c) in H; auto. apply (on_block m c) in H'; auto. destruct H as [Hi Hj], H' as [Hi' Hj'].
  assert (F : forall a b, 1 <= a < 9 -> c <= b < c + 8 -> on m (a, b)) by (intros; apply (on_block m c); auto).
  assert (Col : forall n, 0 <= n -> (c <= j + n < c + 8 -> joined m (i, j) (i, j + n)) /\ (c <= j - n < c + 8 -> joined m (i, j) (i, j - n))).
  { apply natlike_ind.
    - replace (j + 0) with j by lia. replace (j - 0) with j by lia. assert (joined m (i, j) (i, j)) by (constructor; apply F; lia). auto.
    - intros n Hn [A B]. split; intros R.
      + apply joined_step with (i, j + n); [apply A; lia|unfold adjacent; cbn; lia|apply F; lia].
      + apply joined_step with (i, j - n); [apply B; lia|unfold adjacent; cbn; lia|apply F; lia]. }
  assert (J : joined m (i, j) (i, j')).
  { destruct (Z.le_gt_cases j j').
    - replace j' with (j + (j' - j)) by lia. apply Col; lia.
    - replace j' with (j - (j - j')) by lia. apply Col; lia. }
  assert (Row : forall n, 0 <= n -> (1 <= i + n < 9 -> joined m (i, j) (i + n, j')) /\ (1 <= i - n < 9 -> joined m (i, j) (i - n, j'))).
  { apply natlike_ind.
    - replace (i + 0) with i by lia. replace (i - 0) with i by lia. auto.
    - intros n Hn [A B]. split; intros R.
      + apply joined_step with (i + n, j'); [apply A; lia|unfold adjacent; cbn; lia|apply F; lia].
      + apply joined_step with (i - n, j'); [apply B; lia|unfold adjacent; cbn; lia|apply F; lia]. }
  destruct (Z.le_gt_cases i i').
  - replace i' with (i + (i' - i)) by lia. apply Row; lia.
  - replace i' with (i - (i - i')) by lia. apply Row; lia.
Qed.
Definition block_list (c : Z) : list (Z * Z) := list_prod [1; 2; 3; 4; 5; 6; 7; 8] [c; c + 1; c + 2; c + 3; c + 4; c + 5; c + 6; c + 7].
Definition zz_dec : forall x y : Z * Z, {x = y} + {x <> y}.
Proof. decide equality; apply Z.eq_dec. Defined.
Lemma block_large m c i j : 0 <= c <= 2 -> aeq m (block c) -> on m (i, j) -> large m 64 (i, j).
Proof.
  intros Hc M H. exists (block_list c). split; [|split; [reflexivity|]].
  - assert (Q : c = 0 \/ c = 1 \/ c = 2) by lia.
    assert (D : nodup zz_dec (block_list c) = block_list c) by (destruct Q as [->|[->| ->]]; vm_compute; reflexivity). rewrite <- D. apply NoDup_nodup.
  - intros [a b] I. apply in_prod_iff in I as [I1 I2]. apply (block_joined m c); auto. apply (on_block m c); auto. cbn [In] in I1, I2. lia.
Qed.
Lemma disk_zero_one c : 0 <= c <= 2 -> zero_one_image (disk10 c).
Proof.
  intros Hc. split; [|split].
  - intros i j _. cbn [disk10 at2]. destruct (in_block c i j); auto.
  - exists 0, 0. split; [split; cbn; lia|reflexivity].
  - exists 1, 2. split; [split; cbn; lia|]. cbn [disk10 at2]. rewrite (proj2 (in_block_iff c 1 2)) by lia. reflexivity.
Qed.
Lemma disk_thresh c : 0 <= c <= 2 -> exists t, ampthresh (disk10 c) 21 = Ok t /\ aeq t (block c).
Proof.
  intros Hc. destruct (two_level_thresh _ (disk_zero_one c Hc)) as (t & E & T1 & T2 & L). exists t. split; [exact E|]. cbn [disk10 nr nc] in T1, T2. split; [exact T1|]. split; [exact T2|].
  intros i j I. cbn [block at2]. specialize (L i j). unfold lit, bright in L. cbn [disk10 at2] in L. assert (Id : in_arr (disk10 c) i j) by (destruct I; split; cbn; lia).
  destruct (in_block c i j), (at2 t i j); auto.
  - destruct L as [_ L]. destruct (L (conj Id eq_refl)). auto.
  - destruct L as [L _]. destruct (L (conj I eq_refl)). lra.
Qed.
Lemma disk_mask c : 0 <= c <= 2 -> mask_used (disk10 c) (disk10 c) 21 64 true None (block c).
Proof.
  intros Hc. split; [reflexivity|]. split; [reflexivity|]. destruct (disk_thresh c Hc) as (t & E & A). exists t. split; [exact E|]. intros i j I.
  assert (It : in_arr t i j) by (destruct A as (A1 & A2 & _); cbn [block nr nc] in A1, A2; destruct I as [I1 I2]; cbn [disk10 nr nc] in I1, I2; split; lia).
  destruct A as (A1 & A2 & A3). rewrite <- A3 by exact It. split; [|tauto]. intros T. split; [exact T|]. apply (block_large t c); auto; [split; auto|]. split; auto.
Qed.
(** ** The poke *)
Definition g4 (i : Z) : R := if i =? 4 then 1%R else if i =? 5 then (-1)%R else 0%R.
Definition psi10 (i j : Z) : R := (g4 i * g4 j)%R.
Lemma g4_cases i : (i = 4 /\ g4 i = 1%R) \/ (i = 5 /\ g4 i = (-1)%R) \/ (i <> 4 /\ i <> 5 /\ g4 i = 0%R).
Proof. unfold g4. destruct (Z.eqb_spec i 4); [auto|]. destruct (Z.eqb_spec i 5); auto. Qed.
Ltac four i j := destruct (Z.eqb_spec i 4), (Z.eqb_spec j 4), (Z.eqb_spec i 5), (Z.eqb_spec j 5); cbn [andb]; try (exfalso; lia).
Lemma psi_sum f : rsum2 (fun i j => psi10 i j * f i j)%R 10 10 = (f 4%Z 4%Z - f 4%Z 5%Z - f 5%Z 4%Z + f 5%Z 5%Z)%R.
Proof.
  rewrite (rsum2_ext _ (fun i j => ((if (i =? 4) && (j =? 4) then f i j else 0) + (if (i =? 4) && (j =? 5) then - f i j else 0)) +
    ((if (i =? 5) && (j =? 4) then - f i j else 0) + (if (i =? 5) && (j =? 5) then f i j else 0)))%R).
  - rewrite !rsum2_add. rewrite (rsum2_delta f), (rsum2_delta (fun i j => - f i j)%R), (rsum2_delta (fun i j => - f i j)%R), (rsum2_delta f) by lia. ring.
  - intros i j _ _. unfold psi10, g4. four i j; ring.
Qed.
Lemma psi_csum f : csum2 (fun i j => RtoC (psi10 i j) * f i j)%C 10 10 = (f 4%Z 4%Z - f 4%Z 5%Z - f 5%Z 4%Z + f 5%Z 5%Z)%C.
Proof.
  rewrite (csum2_ext _ (fun i j => ((if (i =? 4) && (j =? 4) then f i j else RtoC 0) + (if (i =? 4) && (j =? 5) then - f i j else RtoC 0)) +
    ((if (i =? 5) && (j =? 4) then - f i j else RtoC 0) + (if (i =? 5) && (j =? 5) then f i j else RtoC 0)))%C).
  - rewrite !csum2_add. rewrite (csum2_delta f), (csum2_delta (fun i j => - f i j)%C), (csum2_delta (fun i j => - f i j)%C), (csum2_delta f) by lia. ring.
  - intros i j _ _. unfold psi10, g4. assert (N : RtoC (-1) = (- RtoC 1)%C) by (rewrite <- RtoC_opp; reflexivity).
    four i j; rewrite RtoC_mult, ?N; ring.
Qed.
Definition flat10 : arr R := Arr 10 10 psi10.
Lemma psi_flat : flattened (block 1) psi10 flat10.
Proof.
  cbv zeta. split; [reflexivity|]. exists 0%R, 0%R, 0%R. split.
  - intros p q r.
    set (P := plane_at p q r). set (M f := masked_sum (zero_one_of (block 1)) f).
    assert (E : forall f, M f = rsum2 (fun i j => if in_block 1 i j then f i j else 0)%R 10 10).
    { intros f. unfold M, masked_sum. cbn [zero_one_of amap block nr nc at2]. apply rsum2_ext. intros i j _ _. destruct (in_block 1 i j); destruct (Req_EM_T _ 0); lra || reflexivity. }
    fold (M (fun i j => (psi10 i j - plane_at 0 0 0 i j) ^ 2)%R). fold (M (fun i j => (psi10 i j - P i j) ^ 2)%R). rewrite !E.
    apply Rle_trans with (rsum2 (fun i j => (if in_block 1 i j then (psi10 i j - plane_at 0 0 0 i j) ^ 2 else 0) + (if in_block 1 i j then P i j ^ 2 else 0))%R 10 10).
    + apply rsum2_le. intros i j _ _. destruct (in_block 1 i j); [|lra]. pose proof (pow2_ge_0 (P i j)). lra.
    + apply Req_le. transitivity (rsum2 (fun i j => (if in_block 1 i j then (psi10 i j - P i j) ^ 2 else 0) + psi10 i j * (2 * P i j))%R 10 10).
      * apply rsum2_ext. intros i j _ _. destruct (in_block 1 i j) eqn:B; [unfold plane_at; ring|].
        assert (psi10 i j = 0%R); [|nra]. unfold psi10. destruct (g4_cases i) as [[-> ->]|[[-> ->]|(_ & _ & ->)]], (g4_cases j) as [[-> ->]|[[-> ->]|(_ & _ & ->)]]; try ring; discriminate.
      * rewrite rsum2_add, psi_sum. unfold P, plane_at. ring.
  - intros i j I. cbn [flat10 block at2]. destruct (in_block 1 i j) eqn:B; [unfold plane_at; ring|].
    unfold psi10. destruct (g4_cases i) as [[-> ->]|[[-> ->]|(_ & _ & ->)]], (g4_cases j) as [[-> ->]|[[-> ->]|(_ & _ & ->)]]; try ring; discriminate.
Qed.
Lemma flat_dft k l : 0 < k < 10 -> 0 < l < 10 -> dft flat10 k l <> RtoC 0.
Proof.
  intros Hk Hl. unfold dft. cbn [flat10 nr nc at2]. rewrite psi_csum.
  set (z t := cis (- 2 * PI * (IZR t / 10))).
  assert (E : forall i j, cis (- 2 * PI * (IZR (i * k) / 10 + IZR (j * l) / 10)) = (z (i * k)%Z * z (j * l)%Z)%C).
  { intros i j. unfold z. rewrite <- cis_add. f_equal. ring. }
  rewrite !E. replace (_ - _ - _ + _)%C with ((z (4 * k)%Z - z (5 * k)%Z) * (z (4 * l)%Z - z (5 * l)%Z))%C by ring.
  assert (N : forall t, 0 < t < 10 -> Cmod (z (4 * t)%Z - z (5 * t)%Z)%C <> 0%R).
  { intros t Ht Q. apply Cmod_eq_0 in Q. assert (Q' : z (4 * t)%Z = z (5 * t)%Z) by (replace (z (4 * t)%Z) with (z (4 * t)%Z - z (5 * t)%Z + z (5 * t)%Z)%C by ring; rewrite Q; ring).
    assert (Q2 : cis (2 * PI * (IZR t / 10)) = RtoC 1).
    { replace (2 * PI * (IZR t / 10))%R with (- 2 * PI * (IZR (4 * t) / 10) + - (- 2 * PI * (IZR (5 * t) / 10)))%R by (rewrite !mult_IZR; field).
      rewrite cis_add. fold (z (4 * t)%Z). rewrite Q'. unfold z. apply cis_opp_mult. }
    apply cis_eq_1 in Q2 as [n Q2]. assert (IZR t = IZR (10 * n))%R; [|apply eq_IZR in H; lia].
    rewrite mult_IZR. pose proof PI_RGT_0. apply (Rmult_eq_reg_l (2 * PI / 10)); [|lra]. lra. }
  intros Q. apply (f_equal Cmod) in Q. rewrite Cmod_mult, Cmod_R, Rabs_R0 in Q. apply Rmult_integral in Q as [Q|Q]; revert Q; apply N; lia.
Qed.
Lemma flat_varies : varies flat10.
Proof. split; exists 1, 1; cbn [flat10 nr nc]; (split; [Z.div_mod_to_equations; lia|]); (split; [Z.div_mod_to_equations; lia|]); split; apply flat_dft; lia. Qed.
Lemma psi_small i j : (-1 <= psi10 i j <= 1)%R.
Proof.
  unfold psi10. destruct (g4_cases i) as [[_ ->]|[[_ ->]|(_ & _ & ->)]], (g4_cases j) as [[_ ->]|[[_ ->]|(_ & _ & ->)]]; lra.
Qed.
Lemma pi_3 : (3 < PI)%R.
Proof. pose proof PI2_3_2. lra. Qed.
(** The second measurement: the pupil moved one column, with a tilt. *)
Definition poked0 : arr R := Arr 10 10 psi10.
Definition psi1 (i j : Z) : R := (psi10 (i - 0) (j - 1) + plane_at (1 / 10) 0 0 i j)%R.
Definition poked1 : arr R := Arr 10 10 psi1.
Definition rest10 : arr R := afull 10 10 0%R.
Lemma psi_gentle : gentle (block 1) psi10.
Proof. intros p q _ _ _. pose proof (psi_small (fst p) (snd p)) as A. pose proof (psi_small (fst q) (snd q)) as B. pose proof pi_3. apply Rabs_def1; lra. Qed.
Lemma psi1_gentle : gentle (block 2) psi1.
Proof.
  intros [i j] [i' j'] H H' Ad. cbn [fst snd]. unfold adjacent in Ad. cbn [fst snd] in Ad. unfold psi1, plane_at.
  pose proof (psi_small (i - 0) (j - 1)) as A. pose proof (psi_small (i' - 0) (j' - 1)) as B. pose proof pi_3.
  assert (-1 <= IZR j - IZR j' <= 1)%R by (rewrite <- minus_IZR; split; apply IZR_le; lia). apply Rabs_def1; lra.
Qed.
Lemma congruent_refl x : congruent x x.
Proof. exists 0. ring. Qed.
Lemma psi_shows : shows (block 1) rest10 poked0 psi10.
Proof.
  intros i j _. cbn [rest10 afull poked0 at2]. rewrite Rminus_0_r. split; [apply congruent_refl|]. pose proof (psi_small i j). pose proof pi_3. apply Rabs_le. lra.
Qed.
Lemma psi1_shows : shows (block 2) rest10 poked1 psi1.
Proof.
  intros i j H. apply (on_block _ 2) in H; [|lia|apply aeq_refl]. cbn [rest10 afull poked1 at2]. rewrite Rminus_0_r. split; [apply congruent_refl|].
  unfold psi1, plane_at. pose proof (psi_small (i - 0) (j - 1)) as A. pose proof pi_3.
  assert (0 <= IZR j <= 10)%R by (split; apply IZR_le; lia). apply Rabs_le. lra.
Qed.
Lemma block_moved : moved_mask (block 1) 0 1 (block 2).
Proof.
  split; [reflexivity|]. split; [reflexivity|]. intros i j. rewrite (on_block _ 2), (on_block _ 1) by (apply aeq_refl || lia). lia.
Qed.
Lemma shear_ex lstsq : is_lstsq_oracle lstsq ->
  fit_z_induced_spm_shear (sp_shift scipy_ref) lstsq unwrap_ref small_ref (disk10 1) rest10 poked0 (disk10 2) rest10 poked1 cfg_ex = Ok (1, 0)%R.
Proof.
  intros O. destruct (disk_thresh 1 ltac:(lia)) as (t0 & T0 & _). destruct (disk_thresh 2 ltac:(lia)) as (t1 & T1 & _).
  destruct (shear_defined (sp_shift scipy_ref) lstsq unwrap_ref small_ref O unwrap_ref_ok small_ref_ok (disk10 1) rest10 poked0 (disk10 2) rest10 poked1 cfg_ex k_ex t0 t1) as (x & y & E); try reflexivity; auto.
  { intros i j I. destruct (proj1 (disk_zero_one 1 ltac:(lia)) i j I); lra. }
  { intros i j I. destruct (proj1 (disk_zero_one 2 ltac:(lia)) i j I); lra. }
  { right. cbn [k_ex upsample_factor pad_factor]. lra. }
  destruct (shear_recovers (sp_shift scipy_ref) lstsq unwrap_ref small_ref O unwrap_ref_ok small_ref_ok _ _ _ _ _ _ _ k_ex x y (block 1) (block 2) psi10 flat10 0 1 (1 / 10) 0 0 E) as [-> ->]; try exact E; try reflexivity.
  - apply disk_mask. lia.
  - apply disk_mask. lia.
  - apply (block_joined _ 1); [lia|apply aeq_refl].
  - exact block_moved.
  - exact psi_gentle.
  - exact psi_shows.
  - exact psi1_gentle.
  - exact psi1_shows.
  - exact psi_flat.
  - exact flat_varies.
  - exists 200. split; [lia|reflexivity].
  - cbn. lra.
  - cbn. lra.
  - cbn. lia.
  - cbn. lia.
Qed.
