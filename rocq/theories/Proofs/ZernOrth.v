(** Orthonormality of the Zernike polynomials over the unit disc. *)
From Coq Require Import ZArith Reals List Lia Lra.
From Coquelicot Require Import Coquelicot.
From Verif.Base Require Import Arr Sums.
From Verif.Spec Require Import MathSpec ZernikeSpec.
From Verif.Proofs Require Import ZernP.
Import ListNotations.
Open Scope R_scope.

(** ** Finite differences *)
Fixpoint fdiff (b : nat) (f : nat -> R) (x : nat) : R :=
  match b with O => f x | S b' => fdiff b' (fun x => f x - f (S x)) x end.
Lemma fdiff_ext b : forall f g x, (forall y, f y = g y) -> fdiff b f x = fdiff b g x.
Proof. induction b; intros f g x H; cbn; [apply H|]. apply IHb. intros y. rewrite !H. reflexivity. Qed.
Lemma fdiff_add b : forall f g x, fdiff b (fun y => f y + g y) x = fdiff b f x + fdiff b g x.
Proof.
  induction b; intros f g x; cbn; [reflexivity|]. rewrite <- IHb. apply fdiff_ext. intros; ring.
Qed.
Lemma fdiff_sub b : forall f g x, fdiff b (fun y => f y - g y) x = fdiff b f x - fdiff b g x.
Proof.
  induction b; intros f g x; cbn; [reflexivity|]. rewrite <- IHb. apply fdiff_ext. intros; ring.
Qed.
Lemma fdiff_shift b : forall f x, fdiff b (fun y => f (S y)) x = fdiff b f (S x).
Proof. induction b; intros f x; cbn; [reflexivity|]. rewrite <- IHb. reflexivity. Qed.
Lemma fdiff_S b f x : fdiff (S b) f x = fdiff b f x - fdiff b f (S x).
Proof. cbn. rewrite fdiff_sub, fdiff_shift. reflexivity. Qed.
Definition killed (b : nat) (f : nat -> R) : Prop := forall x, fdiff b f x = 0.
Lemma killed_S b f : killed b f -> killed (S b) f.
Proof. intros H x. rewrite fdiff_S, !H. ring. Qed.
Lemma killed_linear b : forall f c, killed b f -> killed (S b) (fun x => (c - INR x) * f x).
Proof.
  induction b; intros f c H.
  - intros x. pose proof (H x) as H1. pose proof (H (S x)) as H2. cbn [fdiff] in *. rewrite H1, H2. ring.
  - assert (D : killed b (fun x => f x - f (S x))) by (intros x; exact (H x)).
    specialize (IHb _ c D). intros x.
    change (fdiff (S b) (fun y => (c - INR y) * f y - (c - INR (S y)) * f (S y)) x = 0).
    rewrite (fdiff_ext (S b) _ (fun y => (c - INR y) * (f y - f (S y)) + f (S y))).
    + rewrite fdiff_add, IHb, fdiff_shift, H. ring.
    + intros y. rewrite S_INR. ring.
Qed.
Fixpoint lin (l : list R) (x : nat) : R := match l with nil => 1 | c :: l' => (c - INR x) * lin l' x end.
Lemma lin_app l1 l2 x : lin (l1 ++ l2) x = lin l1 x * lin l2 x.
Proof. induction l1; cbn [app lin]; [ring|]. rewrite IHl1. ring. Qed.
Lemma lin_killed l : killed (S (length l)) (lin l).
Proof.
  induction l; [intros x; cbn; ring|]. cbn [length]. exact (killed_linear _ (lin l) a IHl).
Qed.
(** The alternating binomial sum. *)
Lemma fdiff_sum b : forall f x,
  fdiff b f x = sum_f_R0 (fun k => (-1) ^ k * Binomial.C b k * f (x + k)%nat) b.
Proof.
  assert (C0 : forall n, Binomial.C n 0 = 1).
  { intros n. unfold Binomial.C. rewrite Nat.sub_0_r. change (INR (fact 0)) with 1. field. apply INR_fact_neq_0. }
  assert (Cn : forall n, Binomial.C n n = 1).
  { intros n. unfold Binomial.C. rewrite Nat.sub_diag. change (INR (fact 0)) with 1. field. apply INR_fact_neq_0. }
  induction b; intros f x.
  - cbn. rewrite C0. rewrite Nat.add_0_r. ring.
  - rewrite fdiff_S, !IHb. destruct b as [|b].
    { cbn [sum_f_R0]. rewrite !C0, Cn, !Nat.add_0_r. replace (x + 1)%nat with (S x) by lia. cbn. ring. }
    rewrite (tech5 (fun k => (-1) ^ k * Binomial.C (S (S b)) k * f (x + k)%nat) (S b)).
    rewrite (decomp_sum (fun k => (-1) ^ k * Binomial.C (S (S b)) k * f (x + k)%nat) (S b)) by lia. cbn [pred].
    rewrite (decomp_sum (fun k => (-1) ^ k * Binomial.C (S b) k * f (x + k)%nat) (S b)) by lia. cbn [pred].
    rewrite (tech5 (fun k => (-1) ^ k * Binomial.C (S b) k * f (S x + k)%nat) b).
    rewrite !C0, !Cn.
    rewrite (sum_eq (fun i => (-1) ^ S i * Binomial.C (S (S b)) (S i) * f (x + S i)%nat)
      (fun i => (-1) ^ S i * Binomial.C (S b) (S i) * f (x + S i)%nat - (-1) ^ i * Binomial.C (S b) i * f (S x + i)%nat) b).
    2:{ intros i Hi. rewrite <- pascal by lia. replace (S x + i)%nat with (x + S i)%nat by lia. cbn. ring. }
    rewrite minus_sum. replace (x + S (S b))%nat with (S x + S b)%nat by lia. cbn [pow]. ring.
Qed.
(** Factorial quotients are products of linear factors. *)
Lemma lin_fact a b x : (x <= a)%nat ->
  INR (fact (a - x)) * lin (map (fun i => INR (a + i)) (seq 1 b)) x = INR (fact (a + b - x)).
Proof.
  intros H. induction b.
  - cbn. rewrite Nat.add_0_r. ring.
  - rewrite seq_S, map_app, lin_app, <- Rmult_assoc, IHb. cbn [map lin].
    replace (a + S b - x)%nat with (S (a + b - x))%nat by lia. rewrite fact_simpl, mult_INR.
    replace (a + (1 + b))%nat with (x + S (a + b - x))%nat by lia. rewrite plus_INR. ring.
Qed.
(** Sum over k of coefficient k over 2 (a - k + j + 1). *)
Lemma alt_zero a b j : (b <= a)%nat -> (j < b)%nat ->
  sum_f_R0 (fun k => (-1) ^ k * INR (fact (a + b - k)) / (INR (fact k) * INR (fact (a - k)) * INR (fact (b - k)))
                     / (2 * INR (a - k + j + 1))) b = 0.
Proof.
  intros Hb Hj.
  set (l := map (fun i => INR (a + i)) (seq 1 j) ++ map (fun i => INR (a + i)) (seq (j + 2) (b - 1 - j))).
  assert (K : fdiff b (lin l) 0 = 0).
  { assert (L : b = S (length l)). { unfold l. rewrite app_length, !map_length, !seq_length. lia. }
    rewrite L at 1. apply lin_killed. }
  rewrite fdiff_sum in K.
  transitivity (/ (2 * INR (fact b)) * sum_f_R0 (fun k => (-1) ^ k * Binomial.C b k * lin l (0 + k)%nat) b); [|rewrite K; ring].
  rewrite scal_sum. apply sum_eq. intros k Hk. cbn [Nat.add].
  assert (F : INR (fact (a + b - k)) = INR (fact (a - k)) * (lin l k * INR (a - k + j + 1))).
  { rewrite <- lin_fact by lia. f_equal.
    replace (seq 1 b) with (seq 1 j ++ [(1 + j)%nat] ++ seq (j + 2) (b - 1 - j)).
    2:{ replace b with (j + (1 + (b - 1 - j)))%nat at 2 by lia. rewrite !seq_app. replace (1 + j + 1)%nat with (j + 2)%nat by lia. reflexivity. }
    rewrite !map_app, !lin_app. unfold l. rewrite lin_app. cbn [map lin].
    replace (a + (1 + j))%nat with (k + (a - k + j + 1))%nat by lia. rewrite plus_INR. ring. }
  rewrite F. unfold Binomial.C.
  assert (INR (a - k + j + 1) <> 0) by (apply not_0_INR; lia).
  field. repeat split; auto using INR_fact_neq_0.
Qed.

(** ** Radial integrals *)
Lemma sum_rsum f n : sum_f_R0 f n = rsum (fun k => f (Z.to_nat k)) (Z.of_nat n + 1).
Proof.
  induction n. { rewrite rsum_one. reflexivity. }
  rewrite tech5, IHn. replace (Z.of_nat (S n) + 1)%Z with ((Z.of_nat n + 1) + 1)%Z by lia.
  rewrite (rsum_succ _ (Z.of_nat n + 1)) by lia. do 2 f_equal. lia.
Qed.
Lemma is_RInt_rsum (f : Z -> R -> R) v a b n : (forall k, (0 <= k < n)%Z -> is_RInt (f k) a b (v k)) ->
  is_RInt (fun x => rsum (fun k => f k x) n) a b (rsum v n).
Proof.
  intros H. destruct (Z_le_gt_dec 0 n) as [P|P].
  - revert H. pattern n. apply natlike_ind; auto.
    + intros _. apply (is_RInt_ext (fun _ => 0)); [intros; rewrite rsum_0 by lia; reflexivity|]. rewrite rsum_0 by lia.
      pose proof (is_RInt_const a b (0 : R)) as Q. unfold scal in Q; cbn in Q. unfold mult in Q; cbn in Q. rewrite Rmult_0_r in Q. exact Q.
    + intros x Hx IH H. unfold Z.succ. apply (is_RInt_ext (fun t => rsum (fun k => f k t) x + f x t)).
      { intros. rewrite rsum_succ by lia. reflexivity. }
      rewrite rsum_succ by lia. apply (is_RInt_plus (V := R_NormedModule)); [apply IH; intros; apply H; lia|apply H; lia].
  - apply (is_RInt_ext (fun _ => 0)); [intros; rewrite rsum_0 by lia; reflexivity|]. rewrite rsum_0 by lia.
    pose proof (is_RInt_const a b (0 : R)) as Q. unfold scal in Q; cbn in Q. unfold mult in Q; cbn in Q. rewrite Rmult_0_r in Q. exact Q.
Qed.
Lemma is_RInt_scale (f : R -> R) c a b v : is_RInt f a b v -> is_RInt (fun x => c * f x) a b (c * v).
Proof. intros H. exact (is_RInt_scal (V := R_NormedModule) f a b c v H). Qed.
Lemma is_RInt_monomial k : is_RInt (fun r => r ^ k) 0 1 (/ INR (k + 1)).
Proof.
  assert (N : INR (k + 1) <> 0) by (apply not_0_INR; lia).
  replace (/ INR (k + 1)) with (minus ((fun r => / INR (k + 1) * r ^ (k + 1)) 1) ((fun r => / INR (k + 1) * r ^ (k + 1)) 0)).
  2:{ unfold minus, plus, opp; cbn. rewrite pow1, pow_i by lia. ring. }
  apply (is_RInt_derive (V := R_CompleteNormedModule) (fun r => / INR (k + 1) * r ^ (k + 1)) (fun r => r ^ k)).
  - intros x _. auto_derive; auto. replace (Init.Nat.pred (k + 1)) with k by lia. field. auto.
  - intros x _. apply (ex_derive_continuous (V := R_NormedModule)). auto_derive; auto.
Qed.
Section Radial.
Variables n m : Z.
Hypothesis Hm : (0 <= m <= n)%Z.
Hypothesis He : Z.Even (n - m).
Let a := ((n + m) / 2)%Z.
Let b := ((n - m) / 2)%Z.
Lemma ab : (n = a + b /\ m = a - b /\ 0 <= b <= a)%Z.
Proof.
  destruct He as [t Ht]. assert (b = t) by (unfold b; rewrite Ht, Z.mul_comm, Z.div_mul; lia).
  assert (a = t + m)%Z by (unfold a; replace (n + m)%Z with ((t + m) * 2)%Z by lia; rewrite Z.div_mul; lia). lia.
Qed.
Definition moment (j : Z) : R := rsum (fun k => radial_coef n m k / (2 * IZR (a - k + j + 1))) (b + 1).
Lemma radial_moment j : (0 <= j)%Z -> is_RInt (fun r => radial n m r * r ^ Z.to_nat (m + 2 * j) * r) 0 1 (moment j).
Proof.
  intros Hj. destruct ab as (N & M & B). unfold moment.
  apply (is_RInt_ext (fun r => rsum (fun k => radial_coef n m k * r ^ (Z.to_nat (2 * (a - k + j + 1) - 1))) (b + 1))).
  - intros r _. unfold radial. rewrite Rmult_assoc, <- rsum_scal_r. fold b. apply rsum_ext. intros k Hk.
    rewrite !Rmult_assoc. f_equal. rewrite <- tech_pow_Rmult || idtac.
    replace (Z.to_nat (2 * (a - k + j + 1) - 1)) with (Z.to_nat (n - 2 * k) + (Z.to_nat (m + 2 * j) + 1))%nat by lia.
    rewrite !pow_add, pow_1. ring.
  - apply is_RInt_rsum. intros k Hk. unfold Rdiv. apply is_RInt_scale.
    replace (2 * IZR (a - k + j + 1)) with (INR (Z.to_nat (2 * (a - k + j + 1) - 1) + 1)).
    { apply is_RInt_monomial. }
    rewrite <- mult_IZR, INR_IZR_INZ. f_equal. lia.
Qed.
Lemma moment_zero j : (0 <= j < b)%Z -> moment j = 0.
Proof.
  intros Hj. destruct ab as (N & M & B). unfold moment.
  pose proof (alt_zero (Z.to_nat a) (Z.to_nat b) (Z.to_nat j) ltac:(lia) ltac:(lia)) as Q.
  rewrite sum_rsum in Q. rewrite Z2Nat.id in Q by lia. rewrite <- Q. apply rsum_ext. intros k Hk.
  unfold radial_coef, zfact. fold a b. rewrite N, <- Z2Nat.inj_add by lia. rewrite <- !Z2Nat.inj_sub by lia.
  replace (INR (Z.to_nat (a - k) + Z.to_nat j + 1)) with (IZR (a - k + j + 1)) by (rewrite INR_IZR_INZ; f_equal; lia).
  reflexivity.
Qed.
End Radial.
Lemma radial_weight n m r : rsum (fun k => 1 * radial_coef n m k * r ^ Z.to_nat (n - 2 * k)) ((n - m) / 2 + 1) = radial n m r.
Proof. unfold radial. apply rsum_ext. intros; ring. Qed.
Section Ortho.
Variables n n' m : Z.
Hypothesis Hm : (0 <= m <= n)%Z.
Hypothesis He : Z.Even (n - m).
Hypothesis Hm' : (0 <= m <= n')%Z.
Hypothesis He' : Z.Even (n' - m).
(** Product with the other polynomial, term by term with weights. *)
Lemma product_moment (w : Z -> R) :
  is_RInt (fun r => radial n m r * rsum (fun k => w k * radial_coef n' m k * r ^ Z.to_nat (n' - 2 * k)) ((n' - m) / 2 + 1) * r) 0 1
    (rsum (fun k => w k * radial_coef n' m k * moment n m ((n' - m) / 2 - k)) ((n' - m) / 2 + 1)).
Proof.
  destruct (ab n' m Hm' He') as (N & M & B).
  apply (is_RInt_ext (fun r => rsum (fun k => w k * radial_coef n' m k * (radial n m r * r ^ Z.to_nat (m + 2 * ((n' - m) / 2 - k)) * r)) ((n' - m) / 2 + 1))).
  - intros r _. rewrite (Rmult_assoc (radial n m r)), <- rsum_scal_r, <- rsum_scal. apply rsum_ext. intros k Hk.
    replace (m + 2 * ((n' - m) / 2 - k))%Z with (n' - 2 * k)%Z by lia. ring.
  - apply is_RInt_rsum. intros k Hk. apply is_RInt_scale. apply radial_moment; auto. lia.
Qed.
Lemma radial_orth_lt : (n' < n)%Z -> is_RInt (fun r => radial n m r * radial n' m r * r) 0 1 0.
Proof.
  intros L. destruct (ab n m Hm He) as (N & M & B). destruct (ab n' m Hm' He') as (N' & M' & B').
  pose proof (product_moment (fun _ => 1)) as Q.
  rewrite rsum_all_zero in Q.
  - eapply is_RInt_ext; [|exact Q]. intros r _. cbv beta. rewrite radial_weight. reflexivity.
  - intros k Hk. rewrite moment_zero; auto; [ring|]. lia.
Qed.
End Ortho.
Lemma monomial_derive (c : R) (e : nat) (r : R) : is_derive (fun t => c * t ^ e) r (c * (INR e * r ^ pred e)).
Proof.
  evar_last. { apply is_derive_scal. apply is_derive_pow. apply (is_derive_id (K := R_AbsRing)). }
  unfold one; cbn [AbsRing.class AbsRing.sort]; cbn. ring.
Qed.
Lemma radial_norm n m : (0 <= m <= n)%Z -> Z.Even (n - m) -> is_RInt (fun r => radial n m r * radial n m r * r) 0 1 (/ (2 * (IZR n + 1))).
Proof.
  intros Hm He. destruct (ab n m Hm He) as (N & M & B). set (b := ((n - m) / 2)%Z) in *.
  set (J := radial_coef n m 0 * moment n m b).
  assert (only : forall w : Z -> R, rsum (fun k => w k * radial_coef n m k * moment n m (b - k)) (b + 1) = w 0%Z * J).
  { intros w. rewrite rsum_first by lia. rewrite rsum_all_zero. { rewrite Z.sub_0_r. unfold J. ring. }
    intros k Hk. rewrite moment_zero; auto; [ring|]. fold b. lia. }
  assert (E1 : is_RInt (fun r => radial n m r * radial n m r * r) 0 1 J).
  { pose proof (product_moment n n m Hm He Hm He (fun _ => 1)) as Q. cbv beta in Q. fold b in Q.
    rewrite (only (fun _ => 1)), Rmult_1_l in Q. eapply is_RInt_ext; [|exact Q]. intros r _. cbv beta.
    unfold b. rewrite radial_weight. reflexivity. }
  set (rad' := fun r => rsum (fun k => IZR (n - 2 * k) * radial_coef n m k * r ^ Z.to_nat (n - 2 * k)) (b + 1)).
  assert (E2 : is_RInt (fun r => radial n m r * rad' r * r) 0 1 (IZR n * J)).
  { pose proof (product_moment n n m Hm He Hm He (fun k => IZR (n - 2 * k))) as Q. cbv beta in Q. fold b in Q.
    rewrite (only (fun k => IZR (n - 2 * k))) in Q. rewrite Z.mul_0_r, Z.sub_0_r in Q. exact Q. }
  assert (Der : forall r, is_derive (fun r => r ^ 2 * radial n m r ^ 2) r (2 * (radial n m r * radial n m r * r) + 2 * (radial n m r * rad' r * r))).
  { intros r.
    assert (D : is_derive (radial n m) r (rsum (fun k => radial_coef n m k * (INR (Z.to_nat (n - 2 * k)) * r ^ pred (Z.to_nat (n - 2 * k)))) (b + 1))).
    { unfold radial. fold b. generalize (Z.le_refl 0). intros _. assert (P : (0 <= b + 1)%Z) by lia. revert P. generalize (b + 1)%Z as q. 
      intros q P. pattern q. apply natlike_ind; auto.
      - apply (is_derive_ext (fun _ => 0)); [intros; rewrite rsum_0 by lia; reflexivity|]. rewrite rsum_0 by lia. exact (is_derive_const (V := R_NormedModule) 0 r).
      - intros x Hx IH. unfold Z.succ. apply (is_derive_ext (fun t => rsum (fun k => radial_coef n m k * t ^ Z.to_nat (n - 2 * k)) x + radial_coef n m x * t ^ Z.to_nat (n - 2 * x))); [intros t; rewrite (rsum_succ _ x) by lia; reflexivity|]. rewrite rsum_succ by lia.
        apply (is_derive_plus (V := R_NormedModule)); [exact IH|]. apply monomial_derive. }
    assert (R' : r * rsum (fun k => radial_coef n m k * (INR (Z.to_nat (n - 2 * k)) * r ^ pred (Z.to_nat (n - 2 * k)))) (b + 1) = rad' r).
    { unfold rad'. rewrite <- rsum_scal. apply rsum_ext. intros k Hk. destruct (Z.to_nat (n - 2 * k)) as [|e] eqn:E.
      - replace (n - 2 * k)%Z with 0%Z by lia. cbn. ring.
      - replace (IZR (n - 2 * k)) with (INR (S e)) by (rewrite <- E, INR_IZR_INZ; f_equal; lia). cbn [pred pow]. ring. }
    set (d := rsum _ _) in D, R'. auto_derive; [exists d; exact D|].
    change (Derive (fun x => radial n m x) r) with (Derive (radial n m) r).
    rewrite (is_derive_unique _ _ _ D), <- R'. ring. }
  assert (T : is_RInt (fun r => 2 * (radial n m r * radial n m r * r) + 2 * (radial n m r * rad' r * r)) 0 1 1).
  { replace 1 with (minus ((fun r => r ^ 2 * radial n m r ^ 2) 1) ((fun r => r ^ 2 * radial n m r ^ 2) 0)) at 2.
    2:{ unfold minus, plus, opp; cbn. rewrite radial_one by auto. ring. }
    apply (is_RInt_derive (V := R_CompleteNormedModule) (fun r => r ^ 2 * radial n m r ^ 2)); [intros; apply Der|].
    assert (Cr : forall (w : Z -> R) q x, continuous (fun r => rsum (fun k => w k * r ^ Z.to_nat (n - 2 * k)) q) x).
    { intros w q x. destruct (Z_le_gt_dec 0 q) as [P|P].
      - revert P. intros P. pattern q. apply natlike_ind; auto.
        + apply (continuous_ext (fun _ => 0)); [intros; rewrite rsum_0 by lia; reflexivity|apply continuous_const].
        + intros z Hz IH. unfold Z.succ. apply (continuous_ext (fun t => rsum (fun k => w k * t ^ Z.to_nat (n - 2 * k)) z + w z * t ^ Z.to_nat (n - 2 * z))); [intros t; rewrite (rsum_succ _ z) by lia; reflexivity|].
          apply (continuous_plus (V := R_NormedModule)); [exact IH|]. apply (ex_derive_continuous (V := R_NormedModule)). auto_derive; auto.
      - apply (continuous_ext (fun _ => 0)); [intros; rewrite rsum_0 by lia; reflexivity|apply continuous_const]. }
    intros x _.
    assert (C1 : continuous (radial n m) x) by apply Cr.
    assert (C2 : continuous rad' x) by apply (Cr (fun k => IZR (n - 2 * k) * radial_coef n m k)).
    assert (Ci : continuous (fun r : R => r) x) by apply continuous_id.
    assert (Cm : forall f g : R -> R, continuous f x -> continuous g x -> continuous (fun r => f r * g r) x)
      by (intros f g H1 H2; exact (continuous_mult (K := R_AbsRing) f g x H1 H2)).
    assert (C0 : continuous (fun _ : R => 2) x) by apply continuous_const.
    apply (continuous_plus (V := R_NormedModule)); repeat apply Cm; auto. }
  assert (U : is_RInt (fun r => 2 * (radial n m r * radial n m r * r) + 2 * (radial n m r * rad' r * r)) 0 1 (2 * J + 2 * (IZR n * J))).
  { apply (is_RInt_plus (V := R_NormedModule)); apply is_RInt_scale; auto. }
  pose proof (is_RInt_unique _ _ _ _ T) as V1. rewrite (is_RInt_unique _ _ _ _ U) in V1.
  assert (0 <= IZR n) by (apply IZR_le; lia).
  replace (/ (2 * (IZR n + 1))) with J; [exact E1|]. apply (Rmult_eq_reg_l (2 * (IZR n + 1))); [|lra]. rewrite Rinv_r by lra. lra.
Qed.
Lemma radial_orth n n' m : (0 <= m <= n)%Z -> Z.Even (n - m) -> (0 <= m <= n')%Z -> Z.Even (n' - m) ->
  is_RInt (fun r => radial n m r * radial n' m r * r) 0 1 (if (n =? n')%Z then / (2 * (IZR n + 1)) else 0).
Proof.
  intros H1 H2 H3 H4. destruct (Z.eqb_spec n n') as [->|Ne]; [apply radial_norm; auto|].
  destruct (Z_lt_ge_dec n' n).
  - apply radial_orth_lt; auto.
  - apply (is_RInt_ext (fun r => radial n' m r * radial n m r * r)); [intros x _; rewrite (Rmult_comm (radial n' m x)); reflexivity|].
    apply (radial_orth_lt n' n m); auto; lia.
Qed.
