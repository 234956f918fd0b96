(** Orthonormality of the modes over the pupil disc. *)
From Coq Require Import ZArith Reals List Bool Lia Lra.
From Coquelicot Require Import Coquelicot.
From Verif.Base Require Import Py Arr Sums.
From Verif.Model Require Import Math Noll.
From Verif.Spec Require Import MathSpec ZernikeSpec DiskSpec.
From Verif.Proofs Require Import NollP ZernP ZernOrth.
Import ListNotations.
Open Scope R_scope.

Ltac req := intros; match goal with |- ?a = ?b => change (@eq R a b) end; try ring; try field.
(** ** Angular integrals *)
Lemma sin_kpi k : sin (IZR k * PI) = 0.
Proof.
  assert (P : forall n : nat, sin (INR n * PI) = 0).
  { intros n. induction n. { cbn. rewrite Rmult_0_l. apply sin_0. }
    rewrite S_INR, Rmult_plus_distr_r, Rmult_1_l, neg_sin, IHn. ring. }
  destruct (Z_le_gt_dec 0 k).
  - rewrite <- (P (Z.to_nat k)), INR_IZR_INZ. do 3 f_equal. lia.
  - replace (IZR k * PI) with (- (IZR (- k) * PI)) by (rewrite opp_IZR; ring). rewrite sin_neg.
    replace (IZR (- k)) with (INR (Z.to_nat (- k))) by (rewrite INR_IZR_INZ; f_equal; lia). rewrite P. ring.
Qed.
Lemma int_const c a b : is_RInt (fun _ => c) a b ((b - a) * c).
Proof. exact (is_RInt_const (V := R_NormedModule) a b c). Qed.
Lemma int_cos k : is_RInt (fun t => cos (IZR k * t)) (- PI) PI (if (k =? 0)%Z then 2 * PI else 0).
Proof.
  destruct (Z.eqb_spec k 0) as [->|N].
  - replace (2 * PI) with ((PI - - PI) * 1) by ring. apply (is_RInt_ext (fun _ => 1)); [|apply int_const].
    intros. rewrite Rmult_0_l, cos_0. reflexivity.
  - assert (IZR k <> 0) by (apply not_0_IZR; auto).
    replace 0 with (minus ((fun t => / IZR k * sin (IZR k * t)) PI) ((fun t => / IZR k * sin (IZR k * t)) (- PI))).
    2:{ unfold minus, plus, opp; cbn. rewrite <- Ropp_mult_distr_r, sin_neg, sin_kpi. ring. }
    apply (is_RInt_derive (V := R_CompleteNormedModule) (fun t => / IZR k * sin (IZR k * t)) (fun t => cos (IZR k * t))).
    + intros x _. auto_derive; auto. field. auto.
    + intros x _. apply (ex_derive_continuous (V := R_NormedModule)). auto_derive; auto.
Qed.
Lemma int_sin k : is_RInt (fun t => sin (IZR k * t)) (- PI) PI 0.
Proof.
  destruct (Z.eqb_spec k 0) as [->|N].
  - apply (is_RInt_ext (fun _ => 0)); [intros; rewrite Rmult_0_l, sin_0; reflexivity|].
    pose proof (int_const 0 (- PI) PI) as Q. rewrite Rmult_0_r in Q. exact Q.
  - assert (IZR k <> 0) by (apply not_0_IZR; auto).
    replace 0 with (minus ((fun t => - / IZR k * cos (IZR k * t)) PI) ((fun t => - / IZR k * cos (IZR k * t)) (- PI))).
    2:{ unfold minus, plus, opp; cbn. rewrite <- (Ropp_mult_distr_r (IZR k)), cos_neg. ring. }
    apply (is_RInt_derive (V := R_CompleteNormedModule) (fun t => - / IZR k * cos (IZR k * t)) (fun t => sin (IZR k * t))).
    + intros x _. auto_derive; auto. field. auto.
    + intros x _. apply (ex_derive_continuous (V := R_NormedModule)). auto_derive; auto.
Qed.
(** Angular factor of a mode; [e] for cosine. *)
Definition ang (m : Z) (e : bool) (t : R) : R :=
  if (m =? 0)%Z then 1 else if e then cos (IZR m * t) else sin (IZR m * t).
Definition ang_int (m : Z) (e : bool) (m' : Z) (e' : bool) : R :=
  if (m =? m')%Z then (if (m =? 0)%Z then 2 * PI else if eqb e e' then PI else 0) else 0.
Lemma int_lin (f g : R -> R) a b u v p q : is_RInt f a b u -> is_RInt g a b v -> is_RInt (fun t => p * f t + q * g t) a b (p * u + q * v).
Proof. intros. apply (is_RInt_plus (V := R_NormedModule)); apply is_RInt_scale; auto. Qed.
Lemma ang_ok m e m' e' : (0 <= m)%Z -> (0 <= m')%Z ->
  is_RInt (fun t => ang m e t * ang m' e' t) (- PI) PI (ang_int m e m' e').
Proof.
  intros H H'. unfold ang, ang_int.
  destruct (Z.eqb_spec m 0) as [->|N]; destruct (Z.eqb_spec m' 0) as [->|N'].
  - cbn. replace (2 * PI) with ((PI - - PI) * 1) by ring. apply (is_RInt_ext (fun _ => 1)); [req|apply int_const].
  - rewrite (proj2 (Z.eqb_neq 0 m')) by lia. destruct e'.
    + apply (is_RInt_ext (fun t => cos (IZR m' * t))); [req|]. pose proof (int_cos m') as Q. rewrite (proj2 (Z.eqb_neq m' 0)) in Q by lia. exact Q.
    + apply (is_RInt_ext (fun t => sin (IZR m' * t))); [req|]. apply int_sin.
  - rewrite (proj2 (Z.eqb_neq m 0)) by lia. destruct e.
    + apply (is_RInt_ext (fun t => cos (IZR m * t))); [req|]. pose proof (int_cos m) as Q. rewrite (proj2 (Z.eqb_neq m 0)) in Q by lia. exact Q.
    + apply (is_RInt_ext (fun t => sin (IZR m * t))); [req|]. apply int_sin.
  - pose proof (int_cos (m - m')) as Cm. pose proof (int_cos (m + m')) as Cp.
    rewrite (proj2 (Z.eqb_neq (m + m') 0)) in Cp by lia.
    pose proof (int_sin (m - m')) as Sm. pose proof (int_sin (m + m')) as Sp.
    assert (E : (m - m' =? 0)%Z = (m =? m')%Z) by (destruct (Z.eqb_spec m m'), (Z.eqb_spec (m - m') 0); lia || reflexivity).
    rewrite E in Cm.
    assert (A : forall t, cos (IZR (m - m') * t) = cos (IZR m * t) * cos (IZR m' * t) + sin (IZR m * t) * sin (IZR m' * t)).
    { intros t. rewrite minus_IZR, Rmult_minus_distr_r. apply cos_minus. }
    assert (B : forall t, cos (IZR (m + m') * t) = cos (IZR m * t) * cos (IZR m' * t) - sin (IZR m * t) * sin (IZR m' * t)).
    { intros t. rewrite plus_IZR, Rmult_plus_distr_r. apply cos_plus. }
    assert (F : forall t, sin (IZR (m - m') * t) = sin (IZR m * t) * cos (IZR m' * t) - cos (IZR m * t) * sin (IZR m' * t)).
    { intros t. rewrite minus_IZR, Rmult_minus_distr_r. apply sin_minus. }
    assert (G : forall t, sin (IZR (m + m') * t) = sin (IZR m * t) * cos (IZR m' * t) + cos (IZR m * t) * sin (IZR m' * t)).
    { intros t. rewrite plus_IZR, Rmult_plus_distr_r. apply sin_plus. }
    destruct e, e'; cbn [eqb].
    + replace (if (m =? m')%Z then PI else 0) with (/ 2 * (if (m =? m')%Z then 2 * PI else 0) + / 2 * 0) by (destruct (m =? m')%Z; field).
      apply (is_RInt_ext (fun t => / 2 * cos (IZR (m - m') * t) + / 2 * cos (IZR (m + m') * t))); [|apply int_lin; auto].
      intros t _. rewrite A, B. req.
    + replace (if (m =? m')%Z then 0 else 0) with (- / 2 * 0 + / 2 * 0) by (destruct (m =? m')%Z; ring).
      apply (is_RInt_ext (fun t => - / 2 * sin (IZR (m - m') * t) + / 2 * sin (IZR (m + m') * t))); [|apply int_lin; auto].
      intros t _. rewrite F, G. req.
    + replace (if (m =? m')%Z then 0 else 0) with (/ 2 * 0 + / 2 * 0) by (destruct (m =? m')%Z; ring).
      apply (is_RInt_ext (fun t => / 2 * sin (IZR (m - m') * t) + / 2 * sin (IZR (m + m') * t))); [|apply int_lin; auto].
      intros t _. rewrite F, G. req.
    + replace (if (m =? m')%Z then PI else 0) with (/ 2 * (if (m =? m')%Z then 2 * PI else 0) + - / 2 * 0) by (destruct (m =? m')%Z; field).
      apply (is_RInt_ext (fun t => / 2 * cos (IZR (m - m') * t) + - / 2 * cos (IZR (m + m') * t))); [|apply int_lin; auto].
      intros t _. rewrite A, B. req.
Qed.
(** ** Disc integrals *)
Lemma disk_unique p f u v : 0 < p -> disk_integral p f u -> disk_integral p f v -> u = v.
Proof.
  intros Hp (g & G1 & G2) (h & H1 & H2).
  rewrite <- (is_RInt_unique _ _ _ _ G2), <- (is_RInt_unique _ _ _ _ H2). apply RInt_ext.
  rewrite Rmin_left, Rmax_right by lra. intros r Hr.
  rewrite <- (is_RInt_unique _ _ _ _ (G1 r Hr)), <- (is_RInt_unique _ _ _ _ (H1 r Hr)). reflexivity.
Qed.
Lemma disk_ext p f g v : (forall x y, f x y = g x y) -> disk_integral p f v -> disk_integral p g v.
Proof.
  intros E (h & H1 & H2). exists h. split; auto. intros r Hr. eapply is_RInt_ext; [|apply H1; auto].
  intros t _. apply E.
Qed.
Lemma disk_scale p f c v : disk_integral p f v -> disk_integral p (fun x y => c * f x y) (c * v).
Proof.
  intros (h & H1 & H2). exists (fun r => c * h r). split; [intros; apply is_RInt_scale; auto|].
  apply (is_RInt_ext (fun r => c * (r * h r))); [req|]. apply is_RInt_scale; auto.
Qed.
Lemma disk_rsum p (f : Z -> R -> R -> R) v n : 0 < p -> (forall k, (0 <= k < n)%Z -> disk_integral p (f k) (v k)) ->
  disk_integral p (fun x y => rsum (fun k => f k x y) n) (rsum v n).
Proof.
  intros P H. set (g := fun k r => RInt (fun t => f k (r * cos t) (r * sin t)) (- PI) PI).
  exists (fun r => rsum (fun k => g k r) n). split.
  - intros r Hr. apply (is_RInt_rsum (fun k t => f k (r * cos t) (r * sin t))). intros k Hk.
    destruct (H k Hk) as (h & H1 & _). unfold g. rewrite (is_RInt_unique _ _ _ _ (H1 r Hr)). apply H1; auto.
  - apply (is_RInt_ext (fun r => rsum (fun k => r * g k r) n)). { intros; rewrite rsum_scal; reflexivity. }
    apply is_RInt_rsum. intros k Hk. destruct (H k Hk) as (h & H1 & H2).
    eapply is_RInt_ext; [|exact H2]. intros r Hr. cbv beta. f_equal. unfold g.
    rewrite Rmin_left, Rmax_right in Hr by lra. symmetry. apply is_RInt_unique. apply H1. lra.
Qed.
(** ** The modes *)
Section Modes.
Variables (prad : R) (Zf : Z -> R -> R -> R).
Hypothesis Hp : 0 < prad.
Hypothesis HZ : forall j x y, (1 <= j)%Z ->
  exists a, xyzern (afull 1 1 x) (afull 1 1 y) prad [j] = Ok [a] /\ at2 a 0 0 = Zf j x y.
Lemma mode_polar j n m r t : noll_index j n m -> 0 < r -> - PI < t < PI ->
  Zf j (r * cos t) (r * sin t) = sqrt ((if (m =? 0)%Z then 1 else 2) * (IZR n + 1)) * radial n m (r / prad) * ang m (Z.even j) t.
Proof.
  intros Hj Hr Ht. pose proof (noll_index_pos _ _ _ Hj) as J.
  destruct (HZ j (r * cos t) (r * sin t) J) as (a & E & V).
  destruct (xyzern_ok (afull 1 1 (r * cos t)) (afull 1 1 (r * sin t)) prad [j] eq_refl eq_refl Hp) as (cube & E' & L & Q).
  { discriminate. } { intros i [<-|[]]. auto. }
  rewrite E in E'. injection E' as <-.
  destruct (Q 0%nat j a eq_refl eq_refl) as (_ & _ & W).
  rewrite <- V. rewrite (W 0%Z 0%Z n m r t); auto; [|split; cbn; lia|].
  - unfold noll_zernike, ang. destruct (m =? 0)%Z; [rewrite Rmult_1_l; ring|]. destruct (Z.even j); reflexivity.
  - split; [lra|]. split; [lra|]. split; reflexivity.
Qed.
Lemma index_eq j j' n m : noll_index j n m -> noll_index j' n m -> (m <> 0)%Z -> Z.even j = Z.even j' -> j = j'.
Proof.
  intros (_ & _ & [H|H]) (_ & _ & [H'|H']) N E; try lia.
  destruct H as (_ & [H|H]), H' as (_ & [H'|H']); subst; auto.
  - replace (n * (n + 1) / 2 + m + 1)%Z with (Z.succ (n * (n + 1) / 2 + m)) in E by lia. rewrite Z.even_succ, <- Z.negb_even in E. destruct (Z.even _) in E; discriminate.
  - replace (n * (n + 1) / 2 + m + 1)%Z with (Z.succ (n * (n + 1) / 2 + m)) in E by lia. rewrite Z.even_succ, <- Z.negb_even in E. destruct (Z.even _) in E; discriminate.
Qed.
Lemma orthonormal j j' : (1 <= j)%Z -> (1 <= j')%Z ->
  disk_integral prad (fun x y => Zf j x y * Zf j' x y) (if (j =? j')%Z then PI * prad ^ 2 else 0).
Proof.
  intros J J'.
  pose proof (noll_decode j J) as D. pose proof (noll_decode j' J') as D'.
  set (n := noll_n j) in *. set (m := noll_m j) in *. set (n' := noll_n j') in *. set (m' := noll_m j') in *.
  pose proof D as (HM & HE & HJ). pose proof D' as (HM' & HE' & HJ').
  set (A := sqrt ((if (m =? 0)%Z then 1 else 2) * (IZR n + 1))).
  set (A' := sqrt ((if (m' =? 0)%Z then 1 else 2) * (IZR n' + 1))).
  exists (fun r => A * radial n m (r / prad) * (A' * radial n' m' (r / prad)) * ang_int m (Z.even j) m' (Z.even j')). split.
  - intros r Hr.
    apply (is_RInt_ext (fun t => A * radial n m (r / prad) * (A' * radial n' m' (r / prad)) * (ang m (Z.even j) t * ang m' (Z.even j') t))).
    + pose proof PI_RGT_0. rewrite Rmin_left, Rmax_right by lra. intros t Ht.
      rewrite (mode_polar j n m), (mode_polar j' n' m') by (auto; lra). fold A A'. cbn. ring.
    + apply is_RInt_scale. apply ang_ok; lia.
  - assert (base : forall m v, is_RInt (fun r => radial n m r * radial n' m r * r) 0 1 v ->
      is_RInt (fun r => radial n m (r / prad) * radial n' m (r / prad) * r) 0 prad (prad ^ 2 * v)).
    { intros q v Q.
      assert (Q' : is_RInt (fun r => radial n q r * radial n' q r * r) (/ prad * 0 + 0) (/ prad * prad + 0) v).
      { replace (/ prad * 0 + 0) with 0 by ring. replace (/ prad * prad + 0) with 1 by (field; lra). exact Q. }
      pose proof (is_RInt_comp_lin (V := R_NormedModule) _ (/ prad) 0 0 prad v Q') as W.
      apply (is_RInt_scale _ (prad ^ 2)) in W. eapply is_RInt_ext; [|exact W]. intros r _. cbv beta.
      unfold scal; cbn. unfold mult; cbn. replace (/ prad * r + 0) with (r / prad) by (field; lra). field. lra. }
    assert (zero : forall f : R -> R, (forall r, f r = 0) -> is_RInt f 0 prad 0).
    { intros f Hf. apply (is_RInt_ext (fun _ => 0)); [intros; rewrite Hf; reflexivity|].
      pose proof (int_const 0 0 prad) as Q. rewrite Rmult_0_r in Q. exact Q. }
    unfold ang_int. destruct (Z.eqb_spec m m') as [Em|Em].
    2:{ rewrite (proj2 (Z.eqb_neq j j')).
        2:{ intros ->. destruct (noll_index_unique _ _ _ _ _ D D'). auto. }
        apply zero. intros; ring. }
    rewrite <- Em in *.
    pose proof (base m _ (radial_orth n n' m HM HE HM' HE')) as Q.
    assert (N0 : 0 <= IZR n) by (apply IZR_le; lia).
    destruct (Z.eqb_spec m 0) as [E0|E0].
    + apply (is_RInt_scale _ (A * A' * (2 * PI))) in Q.
      apply (is_RInt_ext (fun r => A * A' * (2 * PI) * (radial n m (r / prad) * radial n' m (r / prad) * r))); [req|].
      destruct (Z.eqb_spec n n') as [En|En].
      * assert (j = j') as <-.
        { destruct HJ as [HJ|HJ], HJ' as [HJ'|HJ']; lia. }
        rewrite Z.eqb_refl. replace (PI * prad ^ 2) with (A * A' * (2 * PI) * (prad ^ 2 * / (2 * (IZR n + 1)))); [exact Q|].
        assert (A * A' = IZR n + 1) as ->.
        { unfold A, A'. try rewrite <- Em. rewrite E0. cbn [Z.eqb]. rewrite <- En, sqrt_sqrt by lra. ring. }
        field. lra.
      * rewrite (proj2 (Z.eqb_neq j j')). { rewrite !Rmult_0_r in Q. exact Q. }
        intros ->. destruct (noll_index_unique _ _ _ _ _ D D'). auto.
    + destruct (eqb (Z.even j) (Z.even j')) eqn:Ev.
      2:{ rewrite (proj2 (Z.eqb_neq j j')). { apply zero. intros; ring. }
          intros ->. rewrite eqb_reflx in Ev. discriminate. }
      apply eqb_prop in Ev. apply (is_RInt_scale _ (A * A' * PI)) in Q.
      apply (is_RInt_ext (fun r => A * A' * PI * (radial n m (r / prad) * radial n' m (r / prad) * r))); [req|].
      destruct (Z.eqb_spec n n') as [En|En].
      * rewrite <- En in D'. assert (j = j') as <- by (apply (index_eq j j' n m); auto).
        rewrite Z.eqb_refl. replace (PI * prad ^ 2) with (A * A' * PI * (prad ^ 2 * / (2 * (IZR n + 1)))); [exact Q|].
        assert (A * A' = 2 * (IZR n + 1)) as ->.
        { unfold A, A'. try rewrite <- Em. rewrite (proj2 (Z.eqb_neq m 0)) by auto. rewrite <- En, sqrt_sqrt by lra. ring. }
        field. lra.
      * rewrite (proj2 (Z.eqb_neq j j')). { rewrite !Rmult_0_r in Q. exact Q. }
        intros ->. destruct (noll_index_unique _ _ _ _ _ D D'). auto.
Qed.
Definition comb (c : Z -> R) (N : Z) (x y : R) : R := rsum (fun k => c k * Zf (k + 1) x y) N.
Lemma projection c N i : (0 <= i < N)%Z -> disk_mean prad (fun x y => comb c N x y * Zf (i + 1) x y) (c i).
Proof.
  intros Hi. unfold disk_mean.
  replace (c i * (PI * prad ^ 2)) with (rsum (fun k => c k * (if (k + 1 =? i + 1)%Z then PI * prad ^ 2 else 0)) N).
  - apply (disk_ext _ (fun x y => rsum (fun k => c k * (Zf (k + 1) x y * Zf (i + 1) x y)) N)).
    { intros x y. unfold comb. rewrite <- rsum_scal_r. apply rsum_ext. intros; ring. }
    apply (disk_rsum prad (fun k x y => c k * (Zf (k + 1) x y * Zf (i + 1) x y))); auto. intros k Hk. apply disk_scale. apply orthonormal; lia.
  - rewrite <- (rsum_delta (fun k => c k * (PI * prad ^ 2)) N i Hi). apply rsum_ext. intros k Hk.
    destruct (Z.eqb_spec k i); destruct (Z.eqb_spec (k + 1) (i + 1)); try lia; ring.
Qed.
Lemma mean_square c N : disk_mean prad (fun x y => comb c N x y ^ 2) (rsum (fun k => c k ^ 2) N).
Proof.
  unfold disk_mean. rewrite <- rsum_scal_r.
  apply (disk_ext _ (fun x y => rsum (fun i => c i * (comb c N x y * Zf (i + 1) x y)) N)).
  { intros x y. transitivity (comb c N x y * rsum (fun i => c i * Zf (i + 1) x y) N); [|fold (comb c N x y); ring].
    rewrite <- rsum_scal. apply rsum_ext. intros; ring. }
  replace (rsum (fun i => c i ^ 2 * (PI * prad ^ 2)) N) with (rsum (fun i => c i * (c i * (PI * prad ^ 2))) N) by (apply rsum_ext; intros; ring).
  apply (disk_rsum prad (fun i x y => c i * (comb c N x y * Zf (i + 1) x y))); auto.
  intros k Hk. apply disk_scale. apply (projection c N k Hk).
Qed.
(** Mode 1 is the constant 1. *)
Lemma piston r t : 0 < r -> - PI < t < PI -> Zf 1 (r * cos t) (r * sin t) = 1.
Proof.
  intros Hr Ht. assert (D : noll_index 1 0 0) by (split; [lia|split; [exists 0%Z; lia|left; split; [lia|reflexivity]]]).
  rewrite (mode_polar 1 0 0 r t D Hr Ht). unfold ang. cbn [Z.eqb]. rewrite Rmult_1_r. replace (1 * (0 + 1)) with 1 by ring. rewrite sqrt_1.
  unfold radial. change ((0 - 0) / 2 + 1)%Z with 1%Z. rewrite rsum_one. unfold radial_coef, zfact. cbn. field.
Qed.
Lemma mean c N : (1 <= N)%Z -> disk_mean prad (comb c N) (c 0%Z).
Proof.
  intros H. destruct (projection c N 0 ltac:(lia)) as (h & H1 & H2). exists h. split; auto.
  intros r Hr. eapply is_RInt_ext; [|apply H1; auto]. pose proof PI_RGT_0. rewrite Rmin_left, Rmax_right by lra. intros t Ht.
  cbv beta. change (0 + 1)%Z with 1%Z. rewrite piston by lra. req.
Qed.
Lemma determined c c' N : (forall x y, x ^ 2 + y ^ 2 < prad ^ 2 -> comb c N x y = comb c' N x y) -> forall i, (0 <= i < N)%Z -> c i = c' i.
Proof.
  intros E i Hi. assert (Q : c i * (PI * prad ^ 2) = c' i * (PI * prad ^ 2)).
  { apply (disk_unique prad (fun x y => comb c N x y * Zf (i + 1) x y)); auto; [apply (projection c N i Hi)|].
    destruct (projection c' N i Hi) as (h & H1 & H2). exists h. split; auto. intros r Hr.
    eapply is_RInt_ext; [|apply H1; auto]. intros t _. cbv beta. f_equal. symmetry. apply E.
    pose proof (sin2_cos2 t) as S2. unfold Rsqr in S2. replace ((r * cos t) ^ 2 + (r * sin t) ^ 2) with (r ^ 2 * (sin t * sin t + cos t * cos t)) by ring. rewrite S2. nra. }
  pose proof PI_RGT_0. apply (Rmult_eq_reg_r (PI * prad ^ 2)); auto. assert (0 < PI * prad ^ 2); [|lra]. apply Rmult_lt_0_compat; auto. apply pow_lt; auto.
Qed.
End Modes.
Lemma values_exist prad : 0 < prad -> exists Zf : Z -> R -> R -> R, forall j x y, (1 <= j)%Z ->
  exists a, xyzern (afull 1 1 x) (afull 1 1 y) prad [j] = Ok [a] /\ at2 a 0 0 = Zf j x y.
Proof.
  intros Hp. exists (fun j x y => match xyzern (afull 1 1 x) (afull 1 1 y) prad [j] with Ok (a :: _) => at2 a 0%Z 0%Z | _ => 0 end).
  intros j x y J. destruct (xyzern_ok (afull 1 1 x) (afull 1 1 y) prad [j] eq_refl eq_refl Hp) as (cube & E & L & _).
  { discriminate. } { intros i [<-|[]]. auto. }
  destruct cube as [|a [|b q]]; try discriminate. rewrite E. exists a. auto.
Qed.
Lemma rms_example prad Zf : 0 < prad -> (forall j x y, (1 <= j)%Z ->
    exists a, xyzern (afull 1 1 x) (afull 1 1 y) prad [j] = Ok [a] /\ at2 a 0 0 = Zf j x y) ->
  disk_mean prad (fun x y => rsum (fun k => (if (k =? 3)%Z then 3 else if (k =? 4)%Z then 4 else 0) * Zf (k + 1)%Z x y) 5 ^ 2) 25.
Proof.
  intros Hp HZ. pose proof (mean_square prad Zf Hp HZ (fun k => if (k =? 3)%Z then 3 else if (k =? 4)%Z then 4 else 0) 5) as Q.
  replace 25 with (rsum (fun k => (if (k =? 3)%Z then 3 else if (k =? 4)%Z then 4 else 0) ^ 2) 5); [exact Q|].
  change 5%Z with (0 + 1 + 1 + 1 + 1 + 1)%Z. rewrite !rsum_succ by lia. rewrite rsum_0 by lia. cbn [Z.add Pos.add Pos.succ Z.eqb Pos.eqb]. ring.
Qed.
