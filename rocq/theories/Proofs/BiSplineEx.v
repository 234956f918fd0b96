(** SciPy's routines modelled by the not-a-knot spline meet every requirement made of them. *)
From Coq Require Import ZArith Bool List Reals Lra Lia Psatz Permutation Sorted ClassicalDescription.
From Flocq Require Import Core.
From Verif.Base Require Import Py Arr Vec Sums Lstsq.
From Verif.Model Require Import PadCrop Math Noll Fits Fresnel Dm Conjugate MaskGen.
From Verif.Spec Require Import MathSpec DmSpec FitsSpec ConjugateSpec MaskGenSpec SplineSpec BiSplineSpec PlateSolvSpec.
From Verif.Proofs Require Import PadCropP DmP MathP ConjugateP ConjugateCmdP ConjugateEx MaskGenP MaskGenEx SplineP BiSpline BiSplineUse.
Import ListNotations.
Open Scope Z_scope.

Definition ops_nak : scipy_ops :=
  ScipyOps (fun n ppd a => tensor n (centred n (IZR ppd)) n (centred n (IZR ppd)) a) (fun a _ => a) (sp_shift ConjugateEx.scipy_ref).
Definition kernel_nak : spline2_fun := fun ppa a y x =>
  if Rlt_dec 0 ppa then tensor (nr a) (centred (nr a) ppa) (nc a) (centred (nc a) ppa) a y x else 0%R.
Definition conv_nak : conv_ops := ConvOps (fun a _ => a) bispline_nak kernel_nak solve_ref.
Definition mask_nak (ys xs : vec R) (a : arr R) : R -> R -> R := tensor (nr a) (vat ys) (nc a) (vat xs) a.

Lemma centred_mirror n p i : (0 < p)%R -> centred n p (n - 1 - i) = (0 - centred n p i)%R.
Proof. intros Hp. unfold centred. rewrite !minus_IZR. field. lra. Qed.
Lemma ops_nak_ok : scipy_bicubic_dm ops_nak /\ interpolates ops_nak /\ shape_preserving ops_nak /\ linear_ops ops_nak /\ still ops_nak /\
  no_rotation (sp_rotate ops_nak) /\ whole_shift (sp_shift ops_nak).
Proof.
  split; [|split; [|split; [|split; [|split; [|split]]]]].
  - intros n ppd a Hn Hp H1 H2. cbn [sp_interp ops_nak].
    assert (Ip : (0 < IZR ppd)%R) by (apply IZR_lt; auto).
    assert (T := tensor_bicubic (centred n (IZR ppd)) (centred n (IZR ppd)) a). rewrite H1, H2 in T.
    apply T; auto using centred_grows.
  - intros n ppd a k l Hp H1 H2 Hk Hl. cbn [sp_interp ops_nak].
    assert (Ip : (0 < IZR ppd)%R) by (apply IZR_lt; auto).
    apply (tensor_at n (centred n (IZR ppd)) n (centred n (IZR ppd)) a k l); auto using centred_grows.
  - split; cbn; auto.
  - split; [|split].
    + intros n ppd x y a b d Y X (_ & _ & _ & _ & V) H1 H2. cbn [sp_interp ops_nak].
      apply tensor_linear. intros i j Hi Hj. apply V. split; lia.
    + intros t. split; cbn; auto.
    + intros y x. split; [cbn; auto|]. intros u v a b d (A1 & A2 & A3 & A4 & V). cbn. unfold lin_rel. cbn.
      do 4 (split; [auto|]). intros i j I. unfold in_arrb. rewrite A1, A2, A3, A4.
      destruct (_ && _) eqn:B; [|ring]. apply V. apply in_arrb_spec. exact B.
  - split; [intros a; apply aeq_refl|]. intros a. cbn. change 0%R with (IZR 0). rewrite Zfloor_IZR.
    split; [reflexivity|split; [reflexivity|]]. cbn. intros i j I. rewrite !Z.sub_0_r.
    rewrite (proj2 (in_arrb_spec a i j) I). reflexivity.
  - intros a. apply aeq_refl.
  - exact (proj1 (proj2 ConjugateEx.scipy_ref_ok)).
Qed.
Lemma kernel_nak_ok : scipy_bicubic_kernel kernel_nak /\ kernel_spline kernel_nak /\ spline_symmetric kernel_nak.
Proof.
  split; [|split].
  - intros ppa a H1 H2 Hp. unfold kernel_nak. destruct (Rlt_dec 0 ppa); [|contradiction]. split.
    + apply tensor_bicubic; auto using centred_grows.
    + intros y x. apply tensor_clamp; auto using centred_grows.
  - intros ppa a i j Hp [Hi Hj]. unfold kernel_nak. destruct (Rlt_dec 0 ppa); [|contradiction].
    apply (tensor_at (nr a) (centred (nr a) ppa) (nc a) (centred (nc a) ppa) a i j); auto using centred_grows.
  - intros ppa k y x S. unfold kernel_nak. destruct (Rlt_dec 0 ppa) as [Hp|]; [|reflexivity].
    apply tensor_mirror; auto using centred_grows.
    + intros i Hi. apply centred_mirror; auto.
    + intros i Hi. apply centred_mirror; auto.
    + intros i j Hi Hj. apply S. split; auto.
Qed.
Lemma conv_nak_ok : scipy_bicubic (co_bispline conv_nak) /\ no_rotation (co_rotate conv_nak) /\ grid_spline (co_bispline conv_nak) /\
  is_solver (co_solve conv_nak) /\ keeps_zero conv_nak /\ (forall a t, nr (co_rotate conv_nak a t) = nr a /\ nc (co_rotate conv_nak a t) = nc a).
Proof.
  split; [exact bispline_nak_ok|]. split; [intros a; apply aeq_refl|]. split; [|split; [exact solve_ref_ok|split; [split|]]].
  - intros ys xs a i j My Mx [Hi Hj]. cbn. apply tensor_at; auto; intros k l Hk Hl; [apply My|apply Mx]; lia.
  - intros a t H. exact H.
  - intros ys xs a y x H. cbn. apply tensor_zero. intros i j Hi Hj. apply H. split; auto.
  - intros; cbn; auto.
Qed.
Lemma mask_nak_ok : scipy_bicubic_vec mask_nak /\ good_spline mask_nak /\ keeps_zero_spline mask_nak.
Proof.
  split; [|split].
  - intros ys xs a H1 H2 _ _ Gy Gx. split; [apply tensor_bicubic; auto|]. intros y x. apply tensor_clamp; auto.
  - intros ys xs a Iy Ix L1 L2 H1 H2. unfold mask_nak. rewrite H1, H2.
    assert (Gy : grows (vlen ys) (vat ys)) by (intros k l Hk Hl; apply Iy; auto).
    assert (Gx : grows (vlen xs) (vat xs)) by (intros k l Hk Hl; apply Ix; auto). split.
    + intros i j [Hi Hj]. apply tensor_at; auto; lia.
    + intros y x. apply tensor_clamp; auto.
  - intros ys xs a y x _ _ H1 H2 V. apply tensor_zero. intros i j Hi Hj. apply V. split; auto.
Qed.

(** ** interp1d in platesolv *)
Open Scope R_scope.
Lemma spline_scal l s c : cubic_spline l s -> cubic_spline (map (fun p => (fst p, c * snd p)) l) (fun x => c * s x).
Proof.
  intros (P & V & I & C & F & L).
  set (g := fun p : R * R => (fst p, c * snd p)).
  assert (Hn : forall k, (k < length l)%nat -> nth k (map g l) (0, 0) = g (nth k l (0, 0))).
  { intros k Hk. rewrite (nth_indep _ (0, 0) (g (0, 0))) by (rewrite map_length; auto). apply map_nth. }
  assert (Kn : forall k, (k < length l)%nat -> knot (map g l) k = knot l k) by (intros k Hk; unfold knot; rewrite Hn by auto; reflexivity).
  assert (Ln : forall k, (k < length l)%nat -> level (map g l) k = c * level l k) by (intros k Hk; unfold level; rewrite Hn by auto; reflexivity).
  exists (fun k => Cubic (c * q0 (P k)) (c * q1 (P k)) (c * q2 (P k)) (c * q3 (P k))). rewrite map_length.
  split; [|split; [|split; [|split]]].
  - intros k x Hk Hx. rewrite !Kn in Hx by lia. rewrite (V k x Hk Hx). unfold val; cbn [q0 q1 q2 q3]. ring.
  - intros k Hk. rewrite Kn, Ln, I by auto. reflexivity.
  - intros k Hk. destruct (C k Hk) as [C1 C2]. rewrite !Kn by lia. unfold slope, bend in *; cbn [q0 q1 q2 q3]. split; nra.
  - cbn [q3]. rewrite F. reflexivity.
  - cbn [q3]. rewrite L. reflexivity.
Qed.
Definition usable (xs : list R) (x : R) : Prop :=
  (4 <= length xs)%nat /\ NoDup xs /\ exists a b, In a xs /\ In b xs /\ a <= x <= b.
Definition pairs (xs ys : list R) : list (R * R) := map (fun k => (nth k xs 0, nth k ys 0)) (seq 0 (length xs)).
Definition plate_nak (xs ys : list R) (x : R) : R :=
  if excluded_middle_informative (usable xs x) then SplineP.scipy_ref (pairs xs ys) x else 0.
Lemma pairs_fst xs ys : map fst (pairs xs ys) = xs.
Proof.
  unfold pairs. rewrite map_map. cbn [fst]. apply (nth_ext _ _ 0 0).
  - rewrite map_length, seq_length. reflexivity.
  - intros k Hk. rewrite map_length, seq_length in Hk. rewrite (nth_indep _ 0 (nth 0 xs 0)) by (rewrite map_length, seq_length; auto).
    rewrite (map_nth (fun k => nth k xs 0)), seq_nth by auto. reflexivity.
Qed.
Lemma pairs_length xs ys : length (pairs xs ys) = length xs.
Proof. unfold pairs. rewrite map_length, seq_length. reflexivity. Qed.
Lemma pairs_in xs ys k : (k < length xs)%nat -> In (nth k xs 0, nth k ys 0) (pairs xs ys).
Proof. intros H. unfold pairs. apply in_map_iff. exists k. split; auto. apply in_seq. lia. Qed.
Lemma pairs_scal c xs ys : pairs xs (map (Rmult c) ys) = map (fun p => (fst p, c * snd p)) (pairs xs ys).
Proof.
  unfold pairs. rewrite map_map. cbn [fst snd]. apply map_ext. intros k. f_equal.
  rewrite <- (map_nth (Rmult c) ys 0 k). rewrite Rmult_0_r. reflexivity.
Qed.
Lemma plate_nak_spline xs ys x : usable xs x -> plate_nak xs ys x = SplineP.scipy_ref (pairs xs ys) x.
Proof. intros U. unfold plate_nak. destruct (excluded_middle_informative (usable xs x)); [reflexivity|contradiction]. Qed.
Lemma plate_nak_ok : passes_knots plate_nak /\ homogeneous plate_nak.
Proof.
  split.
  - intros xs ys i N L H4 Hi.
    assert (U : usable xs (nth i xs 0)).
    { split; [auto|split; [auto|]]. exists (nth i xs 0), (nth i xs 0). assert (In (nth i xs 0) xs) by (apply nth_In; auto). repeat split; auto; lra. }
    rewrite plate_nak_spline by auto.
    apply (spline_point SplineP.scipy_ref SplineP.scipy_ref_ok (pairs xs ys) (nth i xs 0, nth i ys 0)).
    + rewrite pairs_length. auto.
    + rewrite pairs_fst. auto.
    + apply pairs_in. auto.
  - intros c xs ys x. unfold plate_nak. destruct (excluded_middle_informative (usable xs x)) as [(L & N & a & b & Ia & Ib & Hx)|U]; [|ring].
    set (l := pairs xs ys). set (l' := pairs xs (map (Rmult c) ys)).
    assert (El : l' = map (fun p => (fst p, c * snd p)) l) by apply pairs_scal.
    assert (Ll : (4 <= length l)%nat) by (unfold l; rewrite pairs_length; auto).
    assert (Nl : NoDup (map fst l)) by (unfold l; rewrite pairs_fst; auto).
    pose proof (isort_spline SplineP.scipy_ref SplineP.scipy_ref_ok l Ll Nl) as C.
    set (r := map (fun p => (fst p, c * snd p)) (isort l)).
    assert (Fr : map fst r = map fst (isort l)) by (unfold r; rewrite map_map; reflexivity).
    assert (C1 : cubic_spline r (fun x => c * SplineP.scipy_ref l x)) by (apply spline_scal; exact C).
    assert (C2 : cubic_spline r (SplineP.scipy_ref l')).
    { apply SplineP.scipy_ref_ok.
      - rewrite El, map_length. auto.
      - rewrite El. unfold r. apply Permutation_map, isort_perm.
      - rewrite Fr. apply isort_sorted. auto. }
    assert (Lr : length r = length l) by (unfold r; rewrite map_length; symmetry; apply Permutation_length, isort_perm).
    assert (Sr : StronglySorted Rlt (map fst r)) by (rewrite Fr; apply isort_sorted; auto).
    apply (spline_unique r (length l - 4) ltac:(lia) Sr (SplineP.scipy_ref l') (fun x => c * SplineP.scipy_ref l x) C2 C1).
    replace (length l - 4 + 3)%nat with (length r - 1)%nat by lia.
    assert (In' : forall z, In z xs -> exists p, In p r /\ fst p = z).
    { intros z Hz. assert (Hz' : In z (map fst r)).
      { rewrite Fr. eapply Permutation_in; [apply Permutation_map, isort_perm|]. unfold l. rewrite pairs_fst. auto. }
      apply in_map_iff in Hz' as (p & E & Hp). exists p. auto. }
    destruct (In' a Ia) as (pa & Ia' & <-). destruct (In' b Ib) as (pb & Ib' & <-).
    apply (knot_between r pa pb); auto. lia.
Qed.

(** ** A concrete command *)
Open Scope Z_scope.
Definition ramp (k : nat) : cubic := Cubic (INR k) 2 (- (1)) (INR k / 2).
Definition hill : arr R := Arr 9 10 (fun i j => bicubic ramp (pixel 9 i) (pixel 10 j)).
Definition dm_frac : dm_config := DmConfig 5 1 1 (3 / 10) (- (2 / 10)) 0 1 true 1 delta3 (afull 5 5 0) (afull 5 5 1%R).
Lemma hill_command : exists h, conv_surf_to_dm_cmd conv_nak hill dm_frac = Ok h.
Proof.
  destruct conv_nak_ok as (_ & _ & _ & _ & _ & S).
  apply conv_def; cbn [c_pitch c_ppact_cx c_ppact_cy c_nact c_ppact_d c_inf dm_frac nr nc delta3 hill]; auto; try lra; try lia.
Qed.
Lemma hill_spline : bicubic_spline (pixel (nr hill)) (pixel (nc hill)) hill (bicubic ramp).
Proof. apply bicubic_poly. reflexivity. Qed.
