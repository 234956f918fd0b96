(** Sums of complex numbers, roots of unity, centred discrete Fourier transforms. *)
From Coq Require Import ZArith Bool Reals Lra Lia.
From Coquelicot Require Import Complex.
From Verif.Base Require Import Sums.
Open Scope C_scope.

Definition csum : (Z -> C) -> Z -> C := gsum C 0 Cplus.
Lemma Cp_assoc (a b c : C) : a + (b + c) = (a + b) + c. Proof. ring. Qed.
Lemma Cp_comm (a b : C) : a + b = b + a. Proof. ring. Qed.
Lemma Cp_zero (a : C) : 0 + a = a. Proof. ring. Qed.
Local Hint Resolve Cp_assoc Cp_comm Cp_zero : core.
Lemma csum_ext (f g : Z -> C) n : (forall k, (0 <= k < n)%Z -> f k = g k) -> csum f n = csum g n.
Proof. apply gsum_ext. Qed.
Lemma csum_0 (f : Z -> C) n : (n <= 0)%Z -> csum f n = 0.
Proof. apply gsum_0. Qed.
Lemma csum_succ (f : Z -> C) n : (0 <= n)%Z -> csum f (n + 1) = csum f n + f n.
Proof. apply gsum_succ. Qed.
Lemma csum_one (f : Z -> C) : csum f 1 = f 0%Z.
Proof. unfold csum. rewrite gsum_one. auto. Qed.
Lemma csum_add (f g : Z -> C) n : csum (fun k => f k + g k) n = csum f n + csum g n.
Proof. apply gsum_add; auto. Qed.
Lemma csum_zero n : csum (fun _ => 0) n = 0.
Proof. apply gsum_zero; auto. Qed.
Lemma csum_all_zero (f : Z -> C) n : (forall k, (0 <= k < n)%Z -> f k = 0) -> csum f n = 0.
Proof. apply gsum_all_zero; auto. Qed.
Lemma csum_swap (f : Z -> Z -> C) n m :
  csum (fun i => csum (fun j => f i j) m) n = csum (fun j => csum (fun i => f i j) n) m.
Proof. apply gsum_swap; auto. Qed.
Lemma csum_split (f : Z -> C) a b : (0 <= a)%Z -> (0 <= b)%Z ->
  csum f (a + b) = csum f a + csum (fun k => f (a + k)%Z) b.
Proof. apply gsum_split; auto. Qed.
Lemma csum_first (f : Z -> C) n : (0 <= n)%Z -> csum f (n + 1) = f 0%Z + csum (fun k => f (k + 1)%Z) n.
Proof. apply gsum_first; auto. Qed.
Lemma csum_delta (f : Z -> C) n k0 : (0 <= k0 < n)%Z ->
  csum (fun k => if (k =? k0)%Z then f k else 0) n = f k0.
Proof. apply gsum_delta; auto. Qed.
Lemma csum_window (f : Z -> C) n o m : (0 <= o)%Z -> (0 <= m)%Z -> (o + m <= n)%Z ->
  csum (fun k => if ((o <=? k) && (k <? o + m))%Z then f (k - o)%Z else 0) n = csum f m.
Proof. apply gsum_window; auto. Qed.
Lemma csum_rev (f : Z -> C) n : csum (fun k => f (n - 1 - k)%Z) n = csum f n.
Proof. apply gsum_rev; auto. Qed.
Lemma csum_roll (f : Z -> C) n s : (0 < n)%Z -> csum (fun k => f ((k + s) mod n)%Z) n = csum f n.
Proof. apply gsum_roll; auto. Qed.
Lemma csum_scal (c : C) (f : Z -> C) n : csum (fun k => c * f k) n = c * csum f n.
Proof. symmetry. apply (gsum_hom C 0 Cplus (fun x => c * x)); intros; ring. Qed.
Lemma csum_scal_r (c : C) (f : Z -> C) n : csum (fun k => f k * c) n = csum f n * c.
Proof. symmetry. apply (gsum_hom C 0 Cplus (fun x => x * c)); intros; ring. Qed.
Lemma csum_opp (f : Z -> C) n : csum (fun k => - f k) n = - csum f n.
Proof. symmetry. apply (gsum_hom C 0 Cplus Copp); intros; ring. Qed.
Lemma csum_sub (f g : Z -> C) n : csum (fun k => f k - g k) n = csum f n - csum g n.
Proof. unfold Cminus. rewrite csum_add, csum_opp. reflexivity. Qed.
Lemma csum_const (c : C) n : (0 <= n)%Z -> csum (fun _ => c) n = IZR n * c.
Proof.
  revert n. apply natlike_ind.
  - rewrite csum_0 by lia. ring.
  - intros n Hn IH. unfold Z.succ. rewrite csum_succ, IH, plus_IZR, RtoC_plus by lia. ring.
Qed.
Lemma Cconj_plus' a b : Cconj (a + b) = Cconj a + Cconj b.
Proof. destruct a, b. unfold Cconj, Cplus; cbn. f_equal; ring. Qed.
Lemma Cconj_mult' a b : Cconj (a * b) = Cconj a * Cconj b.
Proof. destruct a, b. unfold Cconj, Cmult; cbn. f_equal; ring. Qed.
Lemma Cconj_R (x : R) : Cconj x = x.
Proof. unfold Cconj, RtoC; cbn. f_equal; ring. Qed.
Lemma Cconj_inv2 a : Cconj (Cconj a) = a.
Proof. destruct a; unfold Cconj; cbn. f_equal; ring. Qed.
Lemma csum_conj (f : Z -> C) n : Cconj (csum f n) = csum (fun k => Cconj (f k)) n.
Proof. apply (gsum_hom C 0 Cplus Cconj); [apply Cconj_R|apply Cconj_plus']. Qed.
Lemma csum_RtoC (f : Z -> R) n : csum (fun k => RtoC (f k)) n = RtoC (rsum f n).
Proof.
  unfold csum, rsum, gsum. induction (Z.to_nat n) as [|m IH]; cbn [gnsum]; auto.
  rewrite IH, RtoC_plus. reflexivity.
Qed.
Lemma csum_fst (f : Z -> C) n : fst (csum f n) = rsum (fun k => fst (f k)) n.
Proof. unfold csum, rsum, gsum. induction (Z.to_nat n) as [|m IH]; cbn; auto. rewrite IH. auto. Qed.
Lemma csum_snd (f : Z -> C) n : snd (csum f n) = rsum (fun k => snd (f k)) n.
Proof. unfold csum, rsum, gsum. induction (Z.to_nat n) as [|m IH]; cbn; auto. rewrite IH. auto. Qed.
Lemma csum_prod (f g : Z -> C) n m :
  csum f n * csum g m = csum (fun i => csum (fun j => f i * g j) m) n.
Proof. rewrite <- csum_scal_r. apply csum_ext. intros. rewrite csum_scal. reflexivity. Qed.

Definition csum2 (f : Z -> Z -> C) (n m : Z) : C := csum (fun i => csum (fun j => f i j) m) n.
Lemma csum2_ext (f g : Z -> Z -> C) n m :
  (forall i j, (0 <= i < n)%Z -> (0 <= j < m)%Z -> f i j = g i j) -> csum2 f n m = csum2 g n m.
Proof. intros H. apply csum_ext. intros. apply csum_ext. auto. Qed.
Lemma csum2_add (f g : Z -> Z -> C) n m : csum2 (fun i j => f i j + g i j) n m = csum2 f n m + csum2 g n m.
Proof. unfold csum2. rewrite <- csum_add. apply csum_ext. intros. apply csum_add. Qed.
Lemma csum2_scal (c : C) (f : Z -> Z -> C) n m : csum2 (fun i j => c * f i j) n m = c * csum2 f n m.
Proof. unfold csum2. rewrite <- csum_scal. apply csum_ext. intros. apply csum_scal. Qed.
Lemma csum2_scal_r (c : C) (f : Z -> Z -> C) n m : csum2 (fun i j => f i j * c) n m = csum2 f n m * c.
Proof. unfold csum2. rewrite <- csum_scal_r. apply csum_ext. intros. apply csum_scal_r. Qed.
Lemma csum2_swap (f : Z -> Z -> C) n m : csum2 f n m = csum2 (fun j i => f i j) m n.
Proof. apply csum_swap. Qed.
Lemma csum2_RtoC (f : Z -> Z -> R) n m : csum2 (fun i j => RtoC (f i j)) n m = RtoC (rsum2 f n m).
Proof. unfold csum2, rsum2. rewrite <- csum_RtoC. apply csum_ext. intros. apply csum_RtoC. Qed.
Lemma csum2_conj (f : Z -> Z -> C) n m : Cconj (csum2 f n m) = csum2 (fun i j => Cconj (f i j)) n m.
Proof. unfold csum2. rewrite csum_conj. apply csum_ext. intros. apply csum_conj. Qed.
Lemma csum2_delta (f : Z -> Z -> C) n m i0 j0 : (0 <= i0 < n)%Z -> (0 <= j0 < m)%Z ->
  csum2 (fun i j => if ((i =? i0) && (j =? j0))%Z then f i j else 0) n m = f i0 j0.
Proof.
  intros Hi Hj. unfold csum2.
  rewrite (csum_ext _ (fun i => if (i =? i0)%Z then f i j0 else 0)).
  - apply (csum_delta (fun i => f i j0)); auto.
  - intros i _. destruct (i =? i0)%Z; cbn [andb].
    + apply (csum_delta (fun j => f i j)); auto.
    + apply csum_zero.
Qed.

(** Squared modulus. *)
Definition Cmod2 (z : C) : R := (fst z * fst z + snd z * snd z)%R.
Lemma Cmod2_conj z : RtoC (Cmod2 z) = z * Cconj z.
Proof. destruct z. unfold Cmod2, RtoC, Cmult, Cconj; cbn. f_equal; ring. Qed.
Lemma Cmod2_nonneg z : (0 <= Cmod2 z)%R.
Proof. unfold Cmod2. pose proof (Rle_0_sqr (fst z)). pose proof (Rle_0_sqr (snd z)). unfold Rsqr in *. lra. Qed.
Lemma Cmod2_mult a b : Cmod2 (a * b) = (Cmod2 a * Cmod2 b)%R.
Proof. destruct a, b. unfold Cmod2, Cmult; cbn. ring. Qed.
Lemma Cmod2_0 : Cmod2 0 = 0%R.
Proof. unfold Cmod2; cbn. ring. Qed.
Lemma Cmod2_zero z : Cmod2 z = 0%R -> z = 0.
Proof.
  destruct z as [a b]. unfold Cmod2; cbn. intros H.
  pose proof (Rle_0_sqr a). pose proof (Rle_0_sqr b). unfold Rsqr in *.
  assert (a * a = 0)%R by lra. assert (b * b = 0)%R by lra.
  apply Rmult_integral in H2, H3. unfold RtoC. f_equal; tauto.
Qed.
Lemma RtoC_inj (a b : R) : RtoC a = RtoC b -> a = b.
Proof. intros H; now injection H. Qed.
Lemma Cmod2_R (x : R) : Cmod2 x = (x * x)%R.
Proof. unfold Cmod2; cbn. ring. Qed.

(** [cis t] is exp(i t). *)
Definition cis (t : R) : C := (cos t, sin t).
Lemma cis_add a b : cis (a + b) = cis a * cis b.
Proof. unfold cis, Cmult; cbn. rewrite cos_plus, sin_plus. f_equal; ring. Qed.
Lemma cis_0 : cis 0 = 1.
Proof. unfold cis. rewrite cos_0, sin_0. reflexivity. Qed.
Lemma cis_conj t : Cconj (cis t) = cis (- t).
Proof. unfold cis, Cconj; cbn. rewrite cos_neg, sin_neg. reflexivity. Qed.
Lemma Cmod2_cis t : Cmod2 (cis t) = 1%R.
Proof. unfold Cmod2, cis; cbn. pose proof (sin2_cos2 t). unfold Rsqr in H. lra. Qed.
Lemma cis_opp_mult t : cis t * cis (- t) = 1.
Proof. rewrite <- cis_add. replace (t + - t)%R with 0%R by ring. apply cis_0. Qed.
Lemma cis_2PI k : cis (2 * PI * IZR k) = 1.
Proof.
  unfold cis.
  assert (G : forall n, cis (2 * INR n * PI) = 1).
  { intros n. unfold cis. replace (2 * INR n * PI)%R with (0 + 2 * INR n * PI)%R by ring.
    rewrite cos_period, sin_period, cos_0, sin_0. reflexivity. }
  destruct (Z.le_gt_cases 0 k) as [H|H].
  - replace (2 * PI * IZR k)%R with (2 * INR (Z.to_nat k) * PI)%R; [apply G|].
    rewrite INR_IZR_INZ, Z2Nat.id by lia. ring.
  - change (cos (2 * PI * IZR k), sin (2 * PI * IZR k)) with (cis (2 * PI * IZR k)).
    replace (2 * PI * IZR k)%R with (- (2 * INR (Z.to_nat (- k)) * PI))%R.
    + rewrite <- cis_conj, G. apply Cconj_R.
    + rewrite INR_IZR_INZ, Z2Nat.id by lia. rewrite opp_IZR. ring.
Qed.
Lemma cis_eq_1 t : cis t = 1 -> exists k, t = (2 * PI * IZR k)%R.
Proof.
  intros H. injection H as Hc Hs.
  assert (S : sin (t / 2) = 0%R).
  { replace t with (2 * (t / 2))%R in Hc by field. rewrite cos_2a_sin in Hc. nra. }
  apply sin_eq_0_0 in S. destruct S as [k Hk]. exists k. lra.
Qed.

(** [w n a] = exp(2 pi i a / n). *)
Definition w (n a : Z) : C := cis (2 * PI * (IZR a / IZR n)).
Lemma w_add n a b : w n (a + b) = w n a * w n b.
Proof. unfold w. rewrite <- cis_add, plus_IZR. f_equal. unfold Rdiv; ring. Qed.
Lemma w_0 n : w n 0 = 1.
Proof. unfold w. replace (2 * PI * (0 / IZR n))%R with 0%R by (unfold Rdiv; ring). apply cis_0. Qed.
Lemma w_conj n a : Cconj (w n a) = w n (- a).
Proof. unfold w. rewrite cis_conj, opp_IZR. f_equal. unfold Rdiv; ring. Qed.
Lemma Cmod2_w n a : Cmod2 (w n a) = 1%R.
Proof. apply Cmod2_cis. Qed.
Lemma w_mult_n n b : n <> 0%Z -> w n (n * b) = 1.
Proof.
  intros Hn. unfold w. rewrite mult_IZR.
  replace (2 * PI * (IZR n * IZR b / IZR n))%R with (2 * PI * IZR b)%R.
  - apply cis_2PI.
  - field. apply not_0_IZR; auto.
Qed.
Lemma w_congr n a b q : n <> 0%Z -> (a = b + n * q)%Z -> w n a = w n b.
Proof. intros Hn ->. rewrite w_add, w_mult_n by auto. ring. Qed.
Lemma w_mod_l n a k : n <> 0%Z -> w n ((a mod n) * k) = w n (a * k).
Proof.
  intros Hn. apply (w_congr n _ _ (- (a / n) * k)); auto. pose proof (Z.div_mod a n Hn).
  rewrite (Z.mod_eq a n Hn). ring.
Qed.
Lemma w_eq_1 n a : (0 < n)%Z -> w n a = 1 -> (a mod n = 0)%Z.
Proof.
  intros Hn H. apply cis_eq_1 in H. destruct H as [k Hk].
  assert (E : (IZR a / IZR n = IZR k)%R).
  { apply (Rmult_eq_reg_l (2 * PI)); [auto|]. pose proof PI_RGT_0. lra. }
  assert (N : IZR n <> 0%R) by (apply not_0_IZR; lia).
  assert (F : IZR a = IZR (k * n)).
  { rewrite mult_IZR, <- E. field. auto. }
  apply eq_IZR in F. subst a. apply Z.mod_mul. lia.
Qed.
Lemma w_sum n a : (0 < n)%Z ->
  csum (fun k => w n (a * k)) n = if (a mod n =? 0)%Z then RtoC (IZR n) else 0.
Proof.
  intros Hn. destruct (Z.eqb_spec (a mod n) 0) as [E|E].
  - rewrite (csum_ext _ (fun _ => 1)).
    + rewrite csum_const by lia. ring.
    + intros k Hk. rewrite <- w_mod_l, E by lia. apply w_0.
  - assert (T : (w n a - 1) * csum (fun k => w n (a * k)) n = 0).
    { assert (G : forall m, (0 <= m)%Z ->
        (w n a - 1) * csum (fun k => w n (a * k)) m = w n (a * m) - 1).
      { apply natlike_ind.
        - rewrite csum_0 by lia. rewrite Z.mul_0_r, w_0. ring.
        - intros m Hm IH. unfold Z.succ. rewrite csum_succ by lia.
          rewrite Cmult_plus_distr_l, IH. rewrite Z.mul_add_distr_l, Z.mul_1_r, w_add. ring. }
      rewrite G by lia. replace (a * n)%Z with (n * a)%Z by ring. rewrite w_mult_n by lia. ring. }
    destruct (Ceq_dec (csum (fun k => w n (a * k)) n) 0) as [Z0|NZ]; auto. exfalso.
    assert (W : w n a - 1 = 0).
    { replace (w n a - 1) with ((w n a - 1) * csum (fun k => w n (a * k)) n
         * / csum (fun k => w n (a * k)) n).
      - rewrite T. ring.
      - rewrite <- Cmult_assoc, Cinv_r by auto. ring. }
    apply E. apply w_eq_1; auto. replace (w n a) with (w n a - 1 + 1) by ring. rewrite W. ring.
Qed.

(** Centred one-dimensional transform with sign [s]; the origin is at index [n / 2]. *)
Definition cdft (s n : Z) (f : Z -> C) (k : Z) : C :=
  csum (fun i => f i * w n (s * ((i - n / 2) * (k - n / 2)))) n.
Lemma cdft_ext s n f g k : (forall i, (0 <= i < n)%Z -> f i = g i) -> cdft s n f k = cdft s n g k.
Proof. intros H. apply csum_ext. intros. rewrite H by auto. reflexivity. Qed.
Lemma cdft_swap s s' n m g k l :
  cdft s n (fun i => cdft s' m (fun j => g i j) l) k = cdft s' m (fun j => cdft s n (fun i => g i j) k) l.
Proof.
  unfold cdft.
  rewrite (csum_ext _ (fun i => csum (fun j => g i j * w m (s' * ((j - m / 2) * (l - m / 2)))
     * w n (s * ((i - n / 2) * (k - n / 2)))) m)) by (intros; rewrite csum_scal_r; reflexivity).
  rewrite csum_swap. apply csum_ext. intros j Hj.
  rewrite <- csum_scal_r. apply csum_ext. intros. ring.
Qed.
Lemma cdft_add s n f g k : cdft s n (fun i => f i + g i) k = cdft s n f k + cdft s n g k.
Proof. unfold cdft. rewrite <- csum_add. apply csum_ext. intros; ring. Qed.
Lemma cdft_scal s n (c : C) f k : cdft s n (fun i => c * f i) k = c * cdft s n f k.
Proof. unfold cdft. rewrite <- csum_scal. apply csum_ext. intros; ring. Qed.
Lemma cdft_inv s n f k : (s = 1 \/ s = -1)%Z -> (0 <= k < n)%Z ->
  cdft (- s) n (cdft s n f) k = IZR n * f k.
Proof.
  intros Hs Hk. unfold cdft.
  rewrite (csum_ext _ (fun j => csum (fun i => f i *
     w n (- s * ((j - n / 2) * (k - n / 2)) + s * ((i - n / 2) * (j - n / 2)))) n)).
  2:{ intros j Hj. rewrite <- csum_scal_r. apply csum_ext. intros i Hi. rewrite w_add. ring. }
  rewrite csum_swap.
  rewrite (csum_ext _ (fun i => if (i =? k)%Z then f i * IZR n else 0)).
  - rewrite csum_delta by auto. ring.
  - intros i Hi. rewrite csum_scal.
    rewrite (csum_ext _ (fun j => w n (s * (i - k) * - (n / 2)) * w n (s * (i - k) * j))).
    2:{ intros j Hj. rewrite <- w_add. f_equal. ring. }
    rewrite csum_scal, w_sum by lia.
    destruct (Z.eqb_spec i k) as [->|N].
    + rewrite Z.sub_diag, Z.mul_0_r, Z.mul_0_l, w_0. cbn [Z.eqb Z.modulo].
      destruct (Z.eqb_spec (0 mod n) 0) as [_|B]; [ring|]. rewrite Z.mod_0_l in B by lia. lia.
    + destruct (Z.eqb_spec ((s * (i - k)) mod n) 0) as [B|_]; [|ring]. exfalso.
      apply Z.mod_divide in B; [|lia]. destruct B as [q Hq].
      assert (-n < q * n < n)%Z by (destruct Hs; subst s; lia). 
      assert (q = 0)%Z by nia. subst q. destruct Hs; subst s; lia.
Qed.
Lemma cdft_parseval s n f : (s = 1 \/ s = -1)%Z ->
  rsum (fun k => Cmod2 (cdft s n f k)) n = (IZR n * rsum (fun i => Cmod2 (f i)) n)%R.
Proof.
  intros Hs. destruct (Z.le_gt_cases n 0) as [Hn|Hn]; [rewrite !rsum_0 by lia; ring|].
  apply RtoC_inj. rewrite RtoC_mult, <- !csum_RtoC.
  rewrite (csum_ext _ (fun k => csum (fun i => f i * w n (s * ((i - n / 2) * (k - n / 2)))
     * Cconj (cdft s n f k)) n)).
  2:{ intros k Hk. rewrite Cmod2_conj, csum_scal_r. reflexivity. }
  rewrite csum_swap, <- csum_scal. apply csum_ext. intros i Hi.
  rewrite Cmod2_conj.
  rewrite (csum_ext _ (fun k => f i * Cconj (cdft s n f k * w n (- s * ((k - n / 2) * (i - n / 2)))))).
  2:{ intros k Hk. rewrite Cconj_mult', w_conj.
      replace (- (- s * ((k - n / 2) * (i - n / 2))))%Z with (s * ((i - n / 2) * (k - n / 2)))%Z by ring. ring. }
  rewrite csum_scal, <- csum_conj.
  change (csum (fun k => cdft s n f k * w n (- s * ((k - n / 2) * (i - n / 2)))) n)
    with (cdft (- s) n (cdft s n f) i).
  rewrite cdft_inv by auto. rewrite Cconj_mult', Cconj_R. ring.
Qed.

(** Centred two-dimensional transform. *)
Definition cdft2 (s n m : Z) (f : Z -> Z -> C) (k l : Z) : C :=
  cdft s n (fun i => cdft s m (f i) l) k.
Lemma cdft2_ext s n m f g k l :
  (forall i j, (0 <= i < n)%Z -> (0 <= j < m)%Z -> f i j = g i j) -> cdft2 s n m f k l = cdft2 s n m g k l.
Proof. intros H. apply cdft_ext. intros. apply cdft_ext. auto. Qed.
Lemma cdft2_add s n m f g k l :
  cdft2 s n m (fun i j => f i j + g i j) k l = cdft2 s n m f k l + cdft2 s n m g k l.
Proof. unfold cdft2. rewrite <- cdft_add. apply cdft_ext. intros. apply cdft_add. Qed.
Lemma cdft2_scal s n m (c : C) f k l : cdft2 s n m (fun i j => c * f i j) k l = c * cdft2 s n m f k l.
Proof. unfold cdft2. rewrite <- cdft_scal. apply cdft_ext. intros. apply cdft_scal. Qed.
Lemma cdft2_inv s n m f k l : (s = 1 \/ s = -1)%Z -> (0 <= k < n)%Z -> (0 <= l < m)%Z ->
  cdft2 (- s) n m (cdft2 s n m f) k l = IZR n * IZR m * f k l.
Proof.
  intros Hs Hk Hl. unfold cdft2.
  rewrite (cdft_ext _ _ _ (cdft s n (fun i => IZR m * f i l))).
  - rewrite cdft_inv by auto. ring.
  - intros i Hi. rewrite (cdft_swap (- s) s m n (fun x j => cdft s m (f j) x)).
    apply cdft_ext. intros j Hj. apply (cdft_inv s m (f j)); auto.
Qed.
Lemma cdft2_parseval s n m f : (s = 1 \/ s = -1)%Z ->
  rsum2 (fun k l => Cmod2 (cdft2 s n m f k l)) n m
  = (IZR n * IZR m * rsum2 (fun i j => Cmod2 (f i j)) n m)%R.
Proof.
  intros Hs. rewrite rsum2_swap. unfold rsum2 at 1.
  rewrite (rsum_ext _ (fun l => IZR n * rsum (fun i => Cmod2 (cdft s m (f i) l)) n)%R).
  - rewrite rsum_scal. rewrite rsum_swap.
    rewrite (rsum_ext _ (fun i => IZR m * rsum (fun j => Cmod2 (f i j)) m)%R).
    + rewrite rsum_scal. unfold rsum2. ring.
    + intros i Hi. apply cdft_parseval; auto.
  - intros l Hl. apply (cdft_parseval s n (fun i => cdft s m (f i) l)); auto.
Qed.
(** The same as a double sum. *)
Lemma cdft2_sum s n m f k l : cdft2 s n m f k l =
  csum2 (fun i j => f i j * (w n (s * ((i - n / 2) * (k - n / 2))) * w m (s * ((j - m / 2) * (l - m / 2))))) n m.
Proof.
  unfold cdft2, cdft, csum2. apply csum_ext. intros i Hi. rewrite <- csum_scal_r.
  apply csum_ext. intros; ring.
Qed.
