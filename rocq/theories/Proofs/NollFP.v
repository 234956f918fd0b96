(** Zernike modes in double precision: coefficients, powers, rounding errors. *)
From Coq Require Import ZArith Reals Bool List Lia Lra Psatz.
From Flocq Require Import Core BinarySingleNaN Relative.
From Verif.Base Require Import Py F64 Arr Sums Loop.
From Verif.Model Require Import Math Noll NollF.
From Verif.Spec Require Import MathSpec ZernikeSpec NollFSpec.
From Verif.Proofs Require Import F64P F64N ZernP NollP.
Import ListNotations.
Local Open Scope R_scope.
Local Notation B := (bpow radix2).

(** Error of one rounding. *)
Lemma rnd_err x : Rabs (rnd64 x - x) <= B (-53) * Rabs x + B (-1075).
Proof.
  destruct (error_N_FLT radix2 (-1074) 53 eq_refl (fun x => negb (Z.even x)) x) as (e & t & He & Ht & _ & E).
  change (rnd64 x) with (round radix2 flt_exp (Znearest (fun x => negb (Z.even x))) x). rewrite E.
  replace (x * (1 + e) + t - x) with (x * e + t) by ring.
  assert (E1 : / 2 * B (- (53) + 1) = B (-53)) by (change (- (53) + 1)%Z with (1 + -53)%Z; rewrite bpow_plus; change (B 1) with 2; field).
  assert (E2 : / 2 * B (-1074) = B (-1075)) by (change (-1074)%Z with (1 + -1075)%Z; rewrite bpow_plus; change (B 1) with 2; field).
  rewrite E1 in He. rewrite E2 in Ht.
  eapply Rle_trans; [apply Rabs_triang|]. rewrite Rabs_mult. pose proof (Rabs_pos x). nra.
Qed.
Definition u := B (-53).
Lemma u_pos : 0 < u. Proof. apply bpow_gt_0. Qed.
Lemma u_small : u <= / 1000000000000000.
Proof.
  unfold u. change (B (-53)) with (/ IZR (2 ^ 53)). apply Rinv_le_contravar; [apply IZR_lt; reflexivity|]. apply IZR_le. vm_compute. discriminate.
Qed.
Lemma eta_small : 0 < B (-1075) <= u * u.
Proof. split; [apply bpow_gt_0|]. unfold u. rewrite <- bpow_plus. apply bpow_le. lia. Qed.
Lemma rnd_u x : Rabs (rnd64 x - x) <= u * Rabs x + u * u.
Proof. pose proof (rnd_err x). pose proof eta_small. unfold u in *. lra. Qed.
(** An operation whose exact result is below 2^100 is finite. *)
Lemma rnd_fin x : Rabs x <= B 100 -> Rabs (rnd64 x) < B 1024.
Proof. intros H. apply (rnd_small x 100); auto. lia. Qed.
Lemma B100 x : x <= 1000000000000000000000000 -> x <= B 100.
Proof. intros H. eapply Rle_trans; [exact H|]. change (B 100) with (IZR (2 ^ 100)). apply IZR_le. vm_compute. discriminate. Qed.
Lemma mul_near x y : is_finite x = true -> is_finite y = true -> Rabs (fval x * fval y) <= 1000000000000000000000000 ->
  is_finite (fmul x y) = true /\ Rabs (fval (fmul x y) - fval x * fval y) <= u * Rabs (fval x * fval y) + u * u.
Proof. intros Fx Fy H. destruct (fmul_spec x y Fx Fy) as [V F]; [apply rnd_fin, B100, H|]. split; auto. rewrite V. apply rnd_u. Qed.
Lemma add_near x y : is_finite x = true -> is_finite y = true -> Rabs (fval x + fval y) <= 1000000000000000000000000 ->
  is_finite (fadd x y) = true /\ Rabs (fval (fadd x y) - (fval x + fval y)) <= u * Rabs (fval x + fval y) + u * u.
Proof. intros Fx Fy H. destruct (fadd_spec x y Fx Fy) as [V F]; [apply rnd_fin, B100, H|]. split; auto. rewrite V. apply rnd_u. Qed.

(** ** Powers *)
Lemma one_f : is_finite (fadd fzero (fofZ 1)) = true /\ fval (fadd fzero (fofZ 1)) = 1.
Proof.
  destruct (fofZ_spec 1 ltac:(lia)) as [V F]. destruct (fadd_spec fzero (fofZ 1) eq_refl F) as [V' F'].
  - rewrite V. change (fval fzero) with 0. rewrite Rplus_0_l, (rnd_IZR 1) by lia. rewrite Rabs_right by lra. change 1 with (B 0). apply bpow_lt. lia.
  - rewrite V in V'. change (fval fzero) with 0 in V'. rewrite Rplus_0_l, (rnd_IZR 1) in V' by lia. auto.
Qed.
Lemma abs_prod_near p a r b e d : Rabs (p - a) <= e -> Rabs (r - b) <= d -> Rabs a <= 1 -> Rabs b <= 1 ->
  Rabs (p * r - a * b) <= e * (1 + d) + d.
Proof.
  intros Hp Hr Ha Hb. replace (p * r - a * b) with ((p - a) * r + a * (r - b)) by ring.
  eapply Rle_trans; [apply Rabs_triang|]. rewrite !Rabs_mult.
  assert (Rabs r <= 1 + d) by (replace r with (b + (r - b)) by ring; eapply Rle_trans; [apply Rabs_triang|lra]).
  pose proof (Rabs_pos (p - a)). pose proof (Rabs_pos (r - b)). pose proof (Rabs_pos r). pose proof (Rabs_pos a). nra.
Qed.
Lemma powers nmax r rho i : is_finite r = true -> 0 <= rho <= 1 -> Rabs (fval r - rho) <= 4 * u -> (0 <= i <= nmax)%Z -> (i <= 1000)%Z ->
  is_finite (rpow_table_f nmax r i) = true /\ Rabs (fval (rpow_table_f nmax r i) - rho ^ Z.to_nat i) <= 8 * IZR i * u.
Proof.
  intros Fr Hrho Hr Hi Hs. unfold rpow_table_f. pose proof u_pos as U0. pose proof u_small as U1.
  assert (G : forall k, (0 <= k <= nmax)%Z -> (k <= 1000)%Z -> forall K, (k < K <= nmax + 1)%Z ->
    let t := for_range 1 K (fun i t => upd t i (fmul (t (i - 1)%Z) r)) (fun _ => fadd fzero (fofZ 1)) in
    is_finite (t k) = true /\ Rabs (fval (t k) - rho ^ Z.to_nat k) <= 8 * IZR k * u).
  { intros k Hk. destruct Hk as [Hk0 Hk1]. revert Hk1. pattern k. apply natlike_ind; auto; clear k Hk0.
    - intros _ _ K HK. cbn [Z.to_nat pow]. rewrite Rmult_0_r, Rmult_0_l.
      replace (for_range 1 K _ _ 0%Z) with (fadd fzero (fofZ 1)).
      + destruct one_f as [F V]. split; auto. rewrite V, Rminus_diag_eq, Rabs_R0 by reflexivity. lra.
      + symmetry. apply (for_range_inv (fun _ t => t 0%Z = fadd fzero (fofZ 1)) 1 K); try lia; auto.
        intros k s Hk E. rewrite upd_other by lia. exact E.
    - intros k Hk IH Hk1 Hk2 K HK. cbn zeta.
      assert (E : for_range 1 K (fun i t => upd t i (fmul (t (i - 1)%Z) r)) (fun _ => fadd fzero (fofZ 1)) (Z.succ k) =
        fmul (for_range 1 (k + 1) (fun i t => upd t i (fmul (t (i - 1)%Z) r)) (fun _ => fadd fzero (fofZ 1)) k) r).
      { set (body := fun i t => upd t i (fmul (t (i - 1)%Z) r)). set (t0 := fun _ : Z => fadd fzero (fofZ 1)).
        replace K with (k + 2 + (K - (k + 2)))%Z by lia. assert (N : (0 <= K - (k + 2))%Z) by lia. revert N.
        generalize (K - (k + 2))%Z. intros d Hd. pattern d. apply natlike_ind; auto; clear d Hd.
        - rewrite Z.add_0_r. replace (k + 2)%Z with (k + 1 + 1)%Z by lia. rewrite for_range_last by lia. unfold body at 1.
          replace (Z.succ k) with (k + 1)%Z by lia. rewrite upd_same. do 2 f_equal. lia.
        - intros d Hd IHd. replace (k + 2 + Z.succ d)%Z with (k + 2 + d + 1)%Z by lia. rewrite for_range_last by lia. unfold body at 1.
          rewrite upd_other by lia. exact IHd. }
      rewrite E. destruct (IH ltac:(lia) ltac:(lia) (k + 1)%Z ltac:(lia)) as [F V].
      set (p := for_range 1 (k + 1) (fun i t => upd t i (fmul (t (i - 1)%Z) r)) (fun _ => fadd fzero (fofZ 1)) k) in *. clearbody p. clear E IH.
      assert (K0 : 0 <= IZR k <= 1000) by (split; apply IZR_le; lia).
      assert (P1 : 0 <= rho ^ Z.to_nat k <= 1) by (split; [apply pow_le; lra|rewrite <- (pow1 (Z.to_nat k)); apply pow_incr; lra]).
      assert (A := abs_prod_near (fval p) (rho ^ Z.to_nat k) (fval r) rho _ _ V Hr ltac:(rewrite Rabs_right; lra) ltac:(rewrite Rabs_right; lra)).
      assert (Small : 8 * IZR k * u <= / 1000000000) by nra.
      assert (Ab : Rabs (fval p * fval r) <= 2).
      { replace (fval p * fval r) with ((fval p * fval r - rho ^ Z.to_nat k * rho) + rho ^ Z.to_nat k * rho) by ring.
        eapply Rle_trans; [apply Rabs_triang|]. rewrite (Rabs_right (rho ^ Z.to_nat k * rho)) by nra. nra. }
      destruct (mul_near p r F Fr ltac:(lra)) as [F' V']. split; auto.
      replace (Z.to_nat (Z.succ k)) with (S (Z.to_nat k)) by lia. cbn [pow]. rewrite succ_IZR.
      replace (fval (fmul p r) - rho * rho ^ Z.to_nat k) with ((fval (fmul p r) - fval p * fval r) + (fval p * fval r - rho ^ Z.to_nat k * rho)) by ring.
      eapply Rle_trans; [apply Rabs_triang|]. pose proof (Rabs_pos (fval p * fval r)).
      assert (u * u <= / 100 * u) by nra. assert (8 * IZR k * u * (4 * u) <= / 100 * u) by nra. nra. }
  exact (G i ltac:(lia) Hs (nmax + 1)%Z ltac:(lia)).
Qed.

(** ** Coefficients *)
Definition factZ (z : Z) : Z := Z.of_nat (fact (Z.to_nat z)).
Fixpoint fprod (k : nat) : Z := match k with O => 1%Z | S k' => (Z.of_nat k * fprod k')%Z end.
Lemma fprod_fact k : fprod k = Z.of_nat (fact k).
Proof. induction k as [|k IH]; auto. cbn [fprod fact]. rewrite IH. lia. Qed.
Lemma zfact_fprod z : zfact z = IZR (fprod (Z.to_nat z)).
Proof. unfold zfact. rewrite fprod_fact. apply INR_IZR_INZ. Qed.
(** Rounded factorials up to the overflow. *)
Definition gamma_ref (z : Z) : f64 := if (z <=? 171)%Z then fofZ (fprod (Z.to_nat (z - 1))) else B754_infinity false.
(** The integer coefficient. *)
Definition coefZ (n m k : Z) : Z :=
  ((-1) ^ k * (fprod (Z.to_nat (n - k)) / (fprod (Z.to_nat k) * fprod (Z.to_nat ((n + m) / 2 - k)) * fprod (Z.to_nat ((n - m) / 2 - k)))))%Z.
Definition sf_eqb (x y : SpecFloat.spec_float) : bool :=
  match x, y with
  | SpecFloat.S754_finite s p e, SpecFloat.S754_finite s' p' e' => Bool.eqb s s' && Pos.eqb p p' && Z.eqb e e'
  | _, _ => false
  end.
Lemma sf_eqb_ok (x y : f64) : sf_eqb (B2SF x) (B2SF y) = true -> x = y.
Proof.
  intros H. apply B2SF_inj. destruct (B2SF x), (B2SF y); try discriminate. cbn in H.
  apply andb_prop in H. destruct H as [H H3]. apply andb_prop in H. destruct H as [H1 H2].
  apply Bool.eqb_prop in H1. apply Pos.eqb_eq in H2. apply Z.eqb_eq in H3. subst. reflexivity.
Qed.
Definition coef_check (n m k : Z) : bool :=
  let q := coefZ n m k in
  let d := (fprod (Z.to_nat k) * fprod (Z.to_nat ((n + m) / 2 - k)) * fprod (Z.to_nat ((n - m) / 2 - k)))%Z in
  sf_eqb (B2SF (coef_f gamma_ref n m k)) (B2SF (fofZ q)) && (q * d =? (-1) ^ k * fprod (Z.to_nat (n - k)))%Z && (Z.abs q <=? 2 ^ 50)%Z && (1 <=? Z.abs q)%Z.
Definition check_orders (n m : Z) : bool := if Z.even (n - m) then forallb (coef_check n m) (zrange ((n - m) / 2 + 1)) else true.
Definition check_n (n : Z) : bool := forallb (check_orders n) (zrange (n + 1)).
Lemma all_checks_true : forallb check_n (zrange 23) = true.
Proof. vm_cast_no_check (eq_refl true). Qed.
Lemma checked n m k : (0 <= m <= n)%Z -> (n <= 22)%Z -> Z.Even (n - m) -> (0 <= k <= (n - m) / 2)%Z -> coef_check n m k = true.
Proof.
  intros Hm Hn He Hk.
  pose proof (proj1 (forallb_forall check_n (zrange 23)) all_checks_true n (proj2 (in_zrange 23 n) (conj (Z.le_trans 0 m n (proj1 Hm) (proj2 Hm)) (proj2 (Z.lt_succ_r n 22) Hn)))) as H1.
  pose proof (proj1 (forallb_forall (check_orders n) (zrange (n + 1))) H1 m (proj2 (in_zrange (n + 1) m) ltac:(lia))) as H2.
  assert (H3 : forallb (coef_check n m) (zrange ((n - m) / 2 + 1)) = true).
  { revert H2. unfold check_orders. rewrite (proj2 (Z.even_spec (n - m)) He). auto. }
  exact (proj1 (forallb_forall (coef_check n m) (zrange ((n - m) / 2 + 1))) H3 k (proj2 (in_zrange ((n - m) / 2 + 1) k) (conj (proj1 Hk) (proj2 (Z.lt_le_pred k ((n - m) / 2 + 1)) (Z.le_trans _ _ _ (proj2 Hk) (Z.eq_le_incl _ _ (eq_sym (Z.pred_succ _)))))))).
Qed.
Lemma pow_m1_IZR' k : (0 <= k)%Z -> IZR ((-1) ^ k) = (-1) ^ Z.to_nat k.
Proof. intros H. rewrite <- (Z2Nat.id k H) at 1. apply pow_m1_IZR. Qed.
Lemma coef_Z n m k : (0 <= m <= n)%Z -> (n <= 22)%Z -> Z.Even (n - m) -> (0 <= k <= (n - m) / 2)%Z -> IZR (coefZ n m k) = radial_coef n m k.
Proof.
  intros Hm Hn He Hk. pose proof (checked n m k Hm Hn He Hk) as H. unfold coef_check in H.
  apply andb_prop in H. destruct H as [H H4]. apply andb_prop in H. destruct H as [H H3]. apply andb_prop in H. destruct H as [H1 H2].
  apply Z.eqb_eq in H2. unfold radial_coef. rewrite !zfact_fprod, <- pow_m1_IZR', <- !mult_IZR by lia. rewrite <- H2, mult_IZR. field.
  intros Z0. apply eq_IZR in Z0. rewrite Z0, Z.mul_0_r in H2. symmetry in H2. apply Z.mul_eq_0 in H2. destruct H2 as [H2|H2].
  - apply Z.pow_eq_0 in H2; lia.
  - rewrite fprod_fact in H2. pose proof (lt_O_fact (Z.to_nat (n - k))). lia.
Qed.
Lemma coef_ref n m k : (0 <= m <= n)%Z -> (n <= 22)%Z -> Z.Even (n - m) -> (0 <= k <= (n - m) / 2)%Z ->
  is_finite (coef_f gamma_ref n m k) = true /\ fval (coef_f gamma_ref n m k) = radial_coef n m k /\ 1 <= Rabs (radial_coef n m k) <= B 50.
Proof.
  intros Hm Hn He Hk. pose proof (checked n m k Hm Hn He Hk) as H. unfold coef_check in H.
  apply andb_prop in H. destruct H as [H H4]. apply andb_prop in H. destruct H as [H H3]. apply andb_prop in H. destruct H as [H1 H2].
  apply sf_eqb_ok in H1. apply Z.eqb_eq in H2. apply Z.leb_le in H3. apply Z.leb_le in H4.
  destruct (fofZ_spec (coefZ n m k) ltac:(lia)) as [V F].
  pose proof (coef_Z n m k Hm Hn He Hk) as E.
  rewrite H1. split; auto. split; [congruence|]. rewrite <- E, <- abs_IZR. split; [apply IZR_le; auto|]. change (B 50) with (IZR (2 ^ 50)). apply IZR_le, H3.
Qed.
Lemma gamma_ref_exact : gamma_exact gamma_ref.
Proof.
  intros z Hz. unfold gamma_ref. rewrite (proj2 (Z.leb_le z 171)) by lia. rewrite zfact_fprod.
  assert (G : forallb (fun z => match B2SF (fofZ (fprod (Z.to_nat z))) with SpecFloat.S754_finite false p e => (0 <=? e)%Z && (Zpos p * 2 ^ e =? fprod (Z.to_nat z))%Z || (e <? 0)%Z && (Zpos p =? fprod (Z.to_nat z) * 2 ^ (- e))%Z | _ => false end) (zrange 23) = true)
    by (vm_compute; reflexivity).
  rewrite forallb_forall in G. specialize (G (z - 1)%Z (proj2 (in_zrange 23 (z - 1)) ltac:(lia))). cbv beta in G. revert G.
  set (f := fprod (Z.to_nat (z - 1))). clearbody f. destruct (fofZ f) as [s|s| |s p e Hb]; try discriminate. cbn [B2SF]. destruct s; [discriminate|]. intros G.
  split; auto. unfold fval. cbn [B2R]. unfold F2R. cbn [Fnum Fexp cond_Zopp]. apply orb_prop in G. destruct G as [G|G]; apply andb_prop in G; destruct G as [G1 G2].
  - apply Z.leb_le in G1. apply Z.eqb_eq in G2. rewrite <- G2, mult_IZR. f_equal. symmetry. change 2%Z with (radix_val radix2). apply IZR_Zpower, G1.
  - apply Z.ltb_lt in G1. apply Z.eqb_eq in G2. rewrite G2, mult_IZR. change 2%Z with (radix_val radix2). rewrite IZR_Zpower by lia. rewrite Rmult_assoc, <- bpow_plus. replace (- e + e)%Z with 0%Z by lia. cbn [bpow]. ring.
Qed.
Lemma coef_any g n m : gamma_exact g -> (0 <= m <= n)%Z -> (n <= 22)%Z -> Z.Even (n - m) -> coef_tables_f g n m = coef_tables_f gamma_ref n m.
Proof.
  intros Hg Hm Hn He. assert (G : forall z, (1 <= z <= 23)%Z -> g z = gamma_ref z).
  { intros z Hz. destruct (Hg z Hz) as [F V]. destruct (gamma_ref_exact z Hz) as [F' V']. apply fin_eq; auto; [congruence|]. rewrite V. apply Rgt_not_eq, zfact_pos. }
  unfold coef_tables_f. rewrite !G; auto; destruct He as [q Hq]; lia.
Qed.
Lemma coef_exact g n m k : gamma_exact g -> (0 <= m <= n)%Z -> (n <= 22)%Z -> Z.Even (n - m) -> (0 <= k <= (n - m) / 2)%Z ->
  is_finite (coef_f g n m k) = true /\ fval (coef_f g n m k) = radial_coef n m k /\ 1 <= Rabs (radial_coef n m k) <= B 50.
Proof. intros Hg Hm Hn He Hk. unfold coef_f. rewrite (coef_any g n m) by auto. apply coef_ref; auto. Qed.

