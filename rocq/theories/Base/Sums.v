(** Finite sums over 0 <= k < n (n : Z) in a commutative monoid, and over R. *)
From Coq Require Import ZArith Bool Reals Lra Lia.
Open Scope Z_scope.

Section GSum.
Variable K : Type.
Variable zero : K.
Variable add : K -> K -> K.

Fixpoint gnsum (f : Z -> K) (n : nat) : K :=
  match n with O => zero | S n' => add (gnsum f n') (f (Z.of_nat n')) end.
Definition gsum (f : Z -> K) (n : Z) : K := gnsum f (Z.to_nat n).

Lemma gsum_ext f g n : (forall k, 0 <= k < n -> f k = g k) -> gsum f n = gsum g n.
Proof.
  intros H. unfold gsum.
  assert (Hb : forall m, (m <= Z.to_nat n)%nat -> gnsum f m = gnsum g m).
  { induction m as [|m IH]; intros Hm; cbn; auto. rewrite IH by lia. rewrite H by lia. auto. }
  apply Hb; lia.
Qed.
Lemma gsum_0 f n : n <= 0 -> gsum f n = zero.
Proof. intros; unfold gsum. replace (Z.to_nat n) with O by lia. reflexivity. Qed.
Lemma gsum_succ f n : 0 <= n -> gsum f (n + 1) = add (gsum f n) (f n).
Proof.
  intros. unfold gsum. replace (Z.to_nat (n + 1)) with (S (Z.to_nat n)) by lia.
  cbn. rewrite Z2Nat.id by lia. reflexivity.
Qed.
Lemma gsum_one f : gsum f 1 = add zero (f 0).
Proof. reflexivity. Qed.

Hypothesis add_assoc : forall a b c, add a (add b c) = add (add a b) c.
Hypothesis add_comm : forall a b, add a b = add b a.
Hypothesis add_zero : forall a, add zero a = a.

Lemma gsum_add f g n : gsum (fun k => add (f k) (g k)) n = add (gsum f n) (gsum g n).
Proof.
  unfold gsum. induction (Z.to_nat n) as [|m IH]; cbn.
  - now rewrite add_zero.
  - rewrite IH. rewrite <- !add_assoc. f_equal. rewrite !add_assoc. f_equal. apply add_comm.
Qed.
Lemma gsum_zero n : gsum (fun _ => zero) n = zero.
Proof. unfold gsum. induction (Z.to_nat n) as [|m IH]; cbn; auto. now rewrite IH, add_zero. Qed.
Lemma gsum_all_zero f n : (forall k, 0 <= k < n -> f k = zero) -> gsum f n = zero.
Proof. intros H. rewrite (gsum_ext f (fun _ => zero)) by auto. apply gsum_zero. Qed.
Lemma gsum_swap f n m :
  gsum (fun i => gsum (fun j => f i j) m) n = gsum (fun j => gsum (fun i => f i j) n) m.
Proof.
  unfold gsum at 1. induction (Z.to_nat n) as [|k IH] eqn:E in n |- *; cbn.
  - symmetry. rewrite <- (gsum_zero m). apply gsum_ext. intros. apply gsum_0. lia.
  - rewrite (IH (n - 1)) by lia. rewrite <- gsum_add. apply gsum_ext. intros j Hj.
    replace n with ((n - 1) + 1) at 2 by lia. rewrite gsum_succ by lia.
    do 2 f_equal. lia.
Qed.
Lemma gsum_split f a b : 0 <= a -> 0 <= b ->
  gsum f (a + b) = add (gsum f a) (gsum (fun k => f (a + k)) b).
Proof.
  intros Ha Hb. revert b Hb. apply natlike_ind.
  - rewrite Z.add_0_r, (gsum_0 _ 0) by lia. rewrite add_comm, add_zero. reflexivity.
  - intros b Hb IH. unfold Z.succ. rewrite Z.add_assoc. rewrite gsum_succ by lia.
    rewrite IH, gsum_succ by lia. rewrite add_assoc. reflexivity.
Qed.
Lemma gsum_first f n : 0 <= n -> gsum f (n + 1) = add (f 0) (gsum (fun k => f (k + 1)) n).
Proof.
  intros. rewrite Z.add_comm. rewrite gsum_split by lia. rewrite gsum_one, add_zero.
  f_equal. apply gsum_ext. intros. f_equal. lia.
Qed.
Lemma gsum_delta f n k0 : 0 <= k0 < n ->
  gsum (fun k => if k =? k0 then f k else zero) n = f k0.
Proof.
  intros H. replace n with (k0 + ((n - k0 - 1) + 1)) by lia.
  rewrite gsum_split by lia. rewrite gsum_first by lia. rewrite Z.add_0_r, Z.eqb_refl.
  rewrite (gsum_all_zero _ k0), (gsum_all_zero _ (n - k0 - 1)).
  - rewrite add_zero, add_comm, add_zero. reflexivity.
  - intros k Hk. destruct (Z.eqb_spec (k0 + (k + 1)) k0); auto; lia.
  - intros k Hk. destruct (Z.eqb_spec k k0); auto; lia.
Qed.
Lemma gsum_window f n o m : 0 <= o -> 0 <= m -> o + m <= n ->
  gsum (fun k => if (o <=? k) && (k <? o + m) then f (k - o) else zero) n = gsum f m.
Proof.
  intros Ho Hm Hn. replace n with (o + (m + (n - o - m))) by lia.
  rewrite gsum_split by lia. rewrite gsum_all_zero.
  2:{ intros k Hk. destruct (Z.leb_spec o k); cbn; auto; lia. }
  rewrite gsum_split by lia. rewrite add_zero.
  rewrite (gsum_all_zero _ (n - o - m)).
  2:{ intros k Hk. destruct (Z.ltb_spec (o + (m + k)) (o + m)); rewrite ?Bool.andb_false_r; auto; lia. }
  rewrite add_comm, add_zero. apply gsum_ext. intros k Hk.
  destruct (Z.leb_spec o (o + k)), (Z.ltb_spec (o + k) (o + m)); cbn; try lia. f_equal; lia.
Qed.
Lemma gsum_rev f n : gsum (fun k => f (n - 1 - k)) n = gsum f n.
Proof.
  destruct (Z.le_gt_cases n 0) as [Hn|Hn]; [now rewrite !gsum_0 by lia|].
  assert (Hn' : 0 <= n) by lia. clear Hn. revert n Hn' f.
  apply (natlike_ind (fun n => forall f, gsum (fun k => f (n - 1 - k)) n = gsum f n)).
  - intros. reflexivity.
  - intros n Hn IH f. replace (Z.succ n) with (n + 1) by lia.
    rewrite gsum_first by lia. rewrite gsum_succ by lia. rewrite add_comm. f_equal; [|f_equal; lia].
    rewrite <- (IH f). apply gsum_ext. intros. f_equal. lia.
Qed.
Lemma gsum_roll1 f n : 0 < n -> gsum (fun k => f ((k + 1) mod n)) n = gsum f n.
Proof.
  intros Hn.
  assert (E : forall g, gsum g n = gsum g ((n - 1) + 1)) by (intros; f_equal; lia).
  rewrite !E. rewrite gsum_succ by lia. rewrite (gsum_first f) by lia. rewrite add_comm. f_equal.
  - replace (n - 1 + 1) with n by lia. rewrite Z.mod_same by lia. reflexivity.
  - apply gsum_ext. intros. rewrite Z.mod_small by lia. reflexivity.
Qed.
Lemma gsum_roll_nat f n s : 0 < n -> gsum (fun k => f ((k + Z.of_nat s) mod n)) n = gsum f n.
Proof.
  intros Hn. induction s as [|s IH].
  - apply gsum_ext. intros. rewrite Z.add_0_r, Z.mod_small by lia. reflexivity.
  - rewrite <- IH. rewrite <- (gsum_roll1 (fun k => f ((k + Z.of_nat s) mod n)) n) by lia.
    apply gsum_ext. intros k Hk. f_equal. rewrite Zplus_mod_idemp_l. f_equal. lia.
Qed.
Lemma gsum_roll f n s : 0 < n -> gsum (fun k => f ((k + s) mod n)) n = gsum f n.
Proof.
  intros Hn. rewrite <- (gsum_roll_nat f n (Z.to_nat (s mod n))) by lia.
  apply gsum_ext. intros k Hk. f_equal. rewrite Z2Nat.id.
  - rewrite Zplus_mod_idemp_r. reflexivity.
  - apply Z.mod_pos_bound. lia.
Qed.

Lemma gsum_hom (h : K -> K) f n : h zero = zero -> (forall a b, h (add a b) = add (h a) (h b)) ->
  h (gsum f n) = gsum (fun k => h (f k)) n.
Proof.
  intros H0 H1. unfold gsum. induction (Z.to_nat n) as [|m IH]; cbn; auto. rewrite H1, IH. auto.
Qed.
End GSum.

(** ** Sums of reals *)
Open Scope R_scope.
Definition rsum : (Z -> R) -> Z -> R := gsum R 0 Rplus.
Lemma Rp_assoc a b c : a + (b + c) = (a + b) + c. Proof. ring. Qed.
Lemma Rp_comm a b : a + b = b + a. Proof. ring. Qed.
Lemma Rp_zero a : 0 + a = a. Proof. ring. Qed.
Local Hint Resolve Rp_assoc Rp_comm Rp_zero : core.

Lemma rsum_ext f g n : (forall k, (0 <= k < n)%Z -> f k = g k) -> rsum f n = rsum g n.
Proof. apply gsum_ext. Qed.
Lemma rsum_0 f n : (n <= 0)%Z -> rsum f n = 0.
Proof. apply gsum_0. Qed.
Lemma rsum_succ f n : (0 <= n)%Z -> rsum f (n + 1) = rsum f n + f n.
Proof. apply gsum_succ. Qed.
Lemma rsum_one f : rsum f 1 = f 0%Z.
Proof. unfold rsum; rewrite gsum_one. ring. Qed.
Lemma rsum_add f g n : rsum (fun k => f k + g k) n = rsum f n + rsum g n.
Proof. apply gsum_add; auto. Qed.
Lemma rsum_zero n : rsum (fun _ => 0) n = 0.
Proof. apply gsum_zero; auto. Qed.
Lemma rsum_all_zero f n : (forall k, (0 <= k < n)%Z -> f k = 0) -> rsum f n = 0.
Proof. apply gsum_all_zero; auto. Qed.
Lemma rsum_swap f n m :
  rsum (fun i => rsum (fun j => f i j) m) n = rsum (fun j => rsum (fun i => f i j) n) m.
Proof. apply gsum_swap; auto. Qed.
Lemma rsum_split f a b : (0 <= a)%Z -> (0 <= b)%Z ->
  rsum f (a + b) = rsum f a + rsum (fun k => f (a + k)%Z) b.
Proof. apply gsum_split; auto. Qed.
Lemma rsum_first f n : (0 <= n)%Z -> rsum f (n + 1) = f 0%Z + rsum (fun k => f (k + 1)%Z) n.
Proof. apply gsum_first; auto. Qed.
Lemma rsum_delta f n k0 : (0 <= k0 < n)%Z ->
  rsum (fun k => if (k =? k0)%Z then f k else 0) n = f k0.
Proof. apply gsum_delta; auto. Qed.
Lemma rsum_window f n o m : (0 <= o)%Z -> (0 <= m)%Z -> (o + m <= n)%Z ->
  rsum (fun k => if ((o <=? k) && (k <? o + m))%Z then f (k - o)%Z else 0) n = rsum f m.
Proof. apply gsum_window; auto. Qed.
Lemma rsum_rev f n : rsum (fun k => f (n - 1 - k)%Z) n = rsum f n.
Proof. apply gsum_rev; auto. Qed.
Lemma rsum_roll f n s : (0 < n)%Z -> rsum (fun k => f ((k + s) mod n)%Z) n = rsum f n.
Proof. apply gsum_roll; auto. Qed.
Lemma rsum_scal c f n : rsum (fun k => c * f k) n = c * rsum f n.
Proof. symmetry. apply (gsum_hom R 0 Rplus (fun x => c * x)); intros; ring. Qed.
Lemma rsum_scal_r c f n : rsum (fun k => f k * c) n = rsum f n * c.
Proof. symmetry. apply (gsum_hom R 0 Rplus (fun x => x * c)); intros; ring. Qed.
Lemma rsum_opp f n : rsum (fun k => - f k) n = - rsum f n.
Proof. symmetry. apply (gsum_hom R 0 Rplus Ropp); intros; ring. Qed.
Lemma rsum_sub f g n : rsum (fun k => f k - g k) n = rsum f n - rsum g n.
Proof. unfold Rminus. rewrite rsum_add, rsum_opp. reflexivity. Qed.
Lemma rsum_const c n : (0 <= n)%Z -> rsum (fun _ => c) n = IZR n * c.
Proof.
  revert n. apply natlike_ind.
  - rewrite rsum_0 by lia. ring.
  - intros n Hn IH. unfold Z.succ. rewrite rsum_succ, IH, plus_IZR by lia. ring.
Qed.
Lemma rsum_le f g n : (forall k, (0 <= k < n)%Z -> f k <= g k) -> rsum f n <= rsum g n.
Proof.
  intros H. destruct (Z.le_gt_cases n 0) as [Hn|Hn]; [rewrite !rsum_0 by lia; lra|].
  assert (Hb : forall m, (m <= Z.to_nat n)%nat -> gnsum R 0 Rplus f m <= gnsum R 0 Rplus g m).
  { induction m as [|m IH]; intros Hm; cbn; [lra|].
    specialize (IH ltac:(lia)). specialize (H (Z.of_nat m) ltac:(lia)). lra. }
  apply Hb. lia.
Qed.
Lemma rsum_nonneg f n : (forall k, (0 <= k < n)%Z -> 0 <= f k) -> 0 <= rsum f n.
Proof. intros H. rewrite <- (rsum_zero n). apply rsum_le. auto. Qed.
Lemma rsum_term_le f n k0 : (forall k, (0 <= k < n)%Z -> 0 <= f k) -> (0 <= k0 < n)%Z ->
  f k0 <= rsum f n.
Proof.
  intros H Hk. rewrite <- (rsum_delta f n k0) at 1 by auto. apply rsum_le.
  intros k Hk'. destruct (k =? k0)%Z; [lra|auto].
Qed.
Lemma rsum_nonneg_zero f n : (forall k, (0 <= k < n)%Z -> 0 <= f k) -> rsum f n = 0 ->
  forall k, (0 <= k < n)%Z -> f k = 0.
Proof.
  intros H H0 k Hk. pose proof (rsum_term_le f n k H Hk). specialize (H k Hk). lra.
Qed.
Lemma rsum_pos f n k0 : (forall k, (0 <= k < n)%Z -> 0 <= f k) -> (0 <= k0 < n)%Z -> 0 < f k0 ->
  0 < rsum f n.
Proof. intros H Hk Hp. pose proof (rsum_term_le f n k0 H Hk). lra. Qed.
Lemma rsum_abs f n : Rabs (rsum f n) <= rsum (fun k => Rabs (f k)) n.
Proof.
  unfold rsum, gsum. induction (Z.to_nat n) as [|m IH]; cbn.
  - rewrite Rabs_R0; lra.
  - eapply Rle_trans; [apply Rabs_triang|]. lra.
Qed.

(** Sums over a 2-D index range. *)
Definition rsum2 (f : Z -> Z -> R) (n m : Z) : R := rsum (fun i => rsum (fun j => f i j) m) n.
Lemma rsum2_ext f g n m :
  (forall i j, (0 <= i < n)%Z -> (0 <= j < m)%Z -> f i j = g i j) -> rsum2 f n m = rsum2 g n m.
Proof. intros H. apply rsum_ext. intros. apply rsum_ext. auto. Qed.
Lemma rsum2_add f g n m : rsum2 (fun i j => f i j + g i j) n m = rsum2 f n m + rsum2 g n m.
Proof.
  unfold rsum2. rewrite <- rsum_add. apply rsum_ext. intros. apply rsum_add.
Qed.
Lemma rsum2_scal c f n m : rsum2 (fun i j => c * f i j) n m = c * rsum2 f n m.
Proof. unfold rsum2. rewrite <- rsum_scal. apply rsum_ext. intros. apply rsum_scal. Qed.
Lemma rsum2_opp f n m : rsum2 (fun i j => - f i j) n m = - rsum2 f n m.
Proof. unfold rsum2. rewrite <- rsum_opp. apply rsum_ext. intros. apply rsum_opp. Qed.
Lemma rsum2_sub f g n m : rsum2 (fun i j => f i j - g i j) n m = rsum2 f n m - rsum2 g n m.
Proof. unfold rsum2. rewrite <- rsum_sub. apply rsum_ext. intros. apply rsum_sub. Qed.
Lemma rsum2_nonneg f n m : (forall i j, (0 <= i < n)%Z -> (0 <= j < m)%Z -> 0 <= f i j) ->
  0 <= rsum2 f n m.
Proof. intros. apply rsum_nonneg. intros. apply rsum_nonneg. auto. Qed.
Lemma rsum2_le f g n m : (forall i j, (0 <= i < n)%Z -> (0 <= j < m)%Z -> f i j <= g i j) ->
  rsum2 f n m <= rsum2 g n m.
Proof. intros. apply rsum_le. intros. apply rsum_le. auto. Qed.
Lemma rsum2_zero n m : rsum2 (fun _ _ => 0) n m = 0.
Proof. unfold rsum2. apply rsum_all_zero. intros. apply rsum_zero. Qed.
Lemma rsum2_all_zero f n m : (forall i j, (0 <= i < n)%Z -> (0 <= j < m)%Z -> f i j = 0) ->
  rsum2 f n m = 0.
Proof. intros. apply rsum_all_zero. intros. apply rsum_all_zero. auto. Qed.
Lemma rsum2_nonneg_zero f n m :
  (forall i j, (0 <= i < n)%Z -> (0 <= j < m)%Z -> 0 <= f i j) -> rsum2 f n m = 0 ->
  forall i j, (0 <= i < n)%Z -> (0 <= j < m)%Z -> f i j = 0.
Proof.
  intros H H0 i j Hi Hj.
  assert (E : rsum (fun j => f i j) m = 0).
  { apply (rsum_nonneg_zero (fun i => rsum (fun j => f i j) m) n); auto.
    intros. apply rsum_nonneg. auto. }
  apply (rsum_nonneg_zero (fun j => f i j) m); auto.
Qed.
Lemma rsum2_term_le f n m i j :
  (forall i j, (0 <= i < n)%Z -> (0 <= j < m)%Z -> 0 <= f i j) ->
  (0 <= i < n)%Z -> (0 <= j < m)%Z -> f i j <= rsum2 f n m.
Proof.
  intros H Hi Hj.
  apply Rle_trans with (rsum (fun j => f i j) m).
  - apply (rsum_term_le (fun j => f i j)); auto.
  - apply (rsum_term_le (fun i => rsum (fun j => f i j) m)); auto.
    intros. apply rsum_nonneg. auto.
Qed.
Lemma rsum2_swap f n m : rsum2 f n m = rsum2 (fun j i => f i j) m n.
Proof. apply rsum_swap. Qed.
Lemma rsum2_const c n m : (0 <= n)%Z -> (0 <= m)%Z -> rsum2 (fun _ _ => c) n m = IZR n * IZR m * c.
Proof.
  intros. unfold rsum2. rewrite (rsum_ext _ (fun _ => IZR m * c)).
  - rewrite rsum_const by lia. ring.
  - intros. apply rsum_const. lia.
Qed.
Lemma rsum2_delta f n m i0 j0 : (0 <= i0 < n)%Z -> (0 <= j0 < m)%Z ->
  rsum2 (fun i j => if ((i =? i0) && (j =? j0))%Z then f i j else 0) n m = f i0 j0.
Proof.
  intros Hi Hj. unfold rsum2.
  rewrite <- (rsum_delta (fun j => f i0 j) m j0) by auto.
  rewrite <- (rsum_delta (fun i => rsum (fun j => if (j =? j0)%Z then f i j else 0) m) n i0) by auto.
  apply rsum_ext. intros i Hi'. destruct (i =? i0)%Z; cbn; auto. apply rsum_zero.
Qed.
