(** Independence of the modes on a grid of pixels. *)
From Coq Require Import ZArith Reals List Bool Lia Lra.
From Verif.Base Require Import Py Arr Sums Trig Lstsq.
From Verif.Model Require Import Math Noll.
From Verif.Spec Require Import MathSpec ZernikeSpec ZernGridSpec.
From Verif.Proofs Require Import MathP NollP ZernP ZernOrthD.
Import ListNotations.
Open Scope R_scope.

(** ** Polynomials in one variable *)
Inductive upoly : nat -> (R -> R) -> Prop :=
| up_const d c f : (forall x, f x = c) -> upoly d f
| up_x d f g : upoly d f -> (forall x, g x = x * f x) -> upoly (S d) g
| up_add d f g h : upoly d f -> upoly d g -> (forall x, h x = f x + g x) -> upoly d h.
Lemma upoly_mono d f : upoly d f -> forall e, (d <= e)%nat -> upoly e f.
Proof.
  induction 1; intros e He.
  - eapply up_const; eauto.
  - destruct e as [|e]; [lia|]. eapply up_x; [apply IHupoly; lia|auto].
  - eapply up_add; [apply IHupoly1; auto|apply IHupoly2; auto|auto].
Qed.
Lemma upoly_scale d f : upoly d f -> forall a g, (forall x, g x = a * f x) -> upoly d g.
Proof.
  induction 1; intros a h' E.
  - apply (up_const d (a * c)). intros x. rewrite E, H. reflexivity.
  - apply (up_x d (fun x => a * f x)); [apply (IHupoly a); auto|]. intros x. rewrite E, H0. ring.
  - apply (up_add d (fun x => a * f x) (fun x => a * g x)); [apply (IHupoly1 a); auto|apply (IHupoly2 a); auto|].
    intros x. rewrite E, H1. ring.
Qed.
Lemma upoly_ext d f g : upoly d f -> (forall x, g x = f x) -> upoly d g.
Proof. intros H E. apply (upoly_scale d f H 1). intros; rewrite E; ring. Qed.
Lemma upoly_rsum d (f : Z -> R -> R) n : (forall k, (0 <= k < n)%Z -> upoly d (f k)) -> upoly d (fun x => rsum (fun k => f k x) n).
Proof.
  intros H. destruct (Z_le_gt_dec 0 n) as [P|P].
  - revert H. pattern n. apply natlike_ind; auto.
    + intros _. apply (up_const d 0). intros; apply rsum_0; lia.
    + intros x Hx IH H. unfold Z.succ. apply (up_add d (fun t => rsum (fun k => f k t) x) (f x)).
      * apply IH. intros; apply H; lia.
      * apply H; lia.
      * intros t. rewrite rsum_succ by lia. reflexivity.
  - apply (up_const d 0). intros; apply rsum_0; lia.
Qed.
(** Division by x - a. *)
Lemma upoly_divide d f a : upoly d f -> exists g, upoly (pred d) g /\ (d = O -> forall x, g x = 0) /\ forall x, f x - f a = (x - a) * g x.
Proof.
  induction 1 as [d c f E|d f g H IH E|d f g h H1 IH1 H2 IH2 E].
  - exists (fun _ => 0). split; [apply (up_const _ 0); auto|]. split; auto. intros x. rewrite !E. ring.
  - destruct IH as (q & Q & Q0 & QE). exists (fun x => f x + a * q x). split; [|split; [discriminate|]].
    + cbn [pred]. apply (up_add d f (fun x => a * q x)); auto.
      apply (upoly_mono (pred d)); [|lia]. apply (upoly_scale _ q Q a). auto.
    + intros x. rewrite !E. replace (x * f x - a * f a) with ((x - a) * f x + a * (f x - f a)) by ring. rewrite QE. ring.
  - destruct IH1 as (q1 & A1 & B1 & C1), IH2 as (q2 & A2 & B2 & C2). exists (fun x => q1 x + q2 x).
    split; [apply (up_add _ q1 q2); auto|]. split.
    + intros Z0 x. rewrite B1, B2 by auto. ring.
    + intros x. rewrite !E. replace (f x + g x - (f a + g a)) with ((f x - f a) + (g x - g a)) by ring. rewrite C1, C2. ring.
Qed.
Lemma upoly_zero : forall d f xs, upoly d f -> NoDup xs -> (d < length xs)%nat -> (forall x, In x xs -> f x = 0) -> forall x, f x = 0.
Proof.
  induction d as [|d IH]; intros f xs H N L Z0 x.
  - destruct xs as [|a xs]; cbn in L; [lia|].
    destruct (upoly_divide 0 f a H) as (g & _ & G0 & E). specialize (E x). rewrite (G0 eq_refl x), (Z0 a (or_introl eq_refl)) in E. lra.
  - destruct xs as [|a xs]; cbn in L; [lia|].
    destruct (upoly_divide (S d) f a H) as (g & G & _ & E). inversion N as [|? ? N1 N2]; subst.
    assert (A : f a = 0) by (apply Z0; left; auto).
    assert (G0 : forall y, g y = 0).
    { apply (IH g xs G N2); [lia|]. intros y Hy. specialize (E y). rewrite A, (Z0 y (or_intror Hy)) in E.
      assert (y <> a) by (intros ->; auto). apply (Rmult_eq_reg_l (y - a)); lra. }
    specialize (E x). rewrite G0, A in E. lra.
Qed.
(** ** Modes as polynomials *)
Fixpoint cre (m : nat) (x y : R) : R := match m with O => 1 | S k => x * cre k x y - y * cim k x y end
with cim (m : nat) (x y : R) : R := match m with O => 0 | S k => x * cim k x y + y * cre k x y end.
Lemma cre_polar m : forall rho t, cre m (rho * cos t) (rho * sin t) = rho ^ m * cos (INR m * t) /\
  cim m (rho * cos t) (rho * sin t) = rho ^ m * sin (INR m * t).
Proof.
  induction m; intros rho t.
  - cbn. rewrite Rmult_0_l, cos_0, sin_0. split; ring.
  - cbn [cre cim]. destruct (IHm rho t) as [-> ->]. rewrite S_INR, Rmult_plus_distr_r, Rmult_1_l, cos_plus, sin_plus. cbn [pow]. split; ring.
Qed.
Lemma c_upoly_x m y : upoly m (fun x => cre m x y) /\ upoly m (fun x => cim m x y).
Proof.
  induction m as [|m [I1 I2]].
  - split; [apply (up_const 0 1)|apply (up_const 0 0)]; auto.
  - split.
    + apply (up_add (S m) (fun x => x * cre m x y) (fun x => - y * cim m x y)).
      * apply (up_x m _ _ I1). auto.
      * apply (upoly_mono m); [|lia]. apply (upoly_scale m _ I2 (- y)). auto.
      * intros x. cbn [cre]. ring.
    + apply (up_add (S m) (fun x => x * cim m x y) (fun x => y * cre m x y)).
      * apply (up_x m _ _ I2). auto.
      * apply (upoly_mono m); [|lia]. apply (upoly_scale m _ I1 y). auto.
      * intros x. reflexivity.
Qed.
Lemma c_upoly_y m x : upoly m (fun y => cre m x y) /\ upoly m (fun y => cim m x y).
Proof.
  induction m as [|m [I1 I2]].
  - split; [apply (up_const 0 1)|apply (up_const 0 0)]; auto.
  - split.
    + apply (up_add (S m) (fun y => y * (- cim m x y)) (fun y => x * cre m x y)).
      * apply (up_x m (fun y => - cim m x y)); auto. apply (upoly_scale m _ I2 (-1)). intros; ring.
      * apply (upoly_mono m); [|lia]. apply (upoly_scale m _ I1 x). auto.
      * intros y. cbn [cre]. ring.
    + apply (up_add (S m) (fun y => y * cre m x y) (fun y => x * cim m x y)).
      * apply (up_x m _ _ I1). auto.
      * apply (upoly_mono m); [|lia]. apply (upoly_scale m _ I2 x). auto.
      * intros y. cbn [cim]. ring.
Qed.
Lemma sq_upoly d f (s : R) p : upoly d f -> upoly (2 * p + d) (fun x => (x ^ 2 + s) ^ p * f x).
Proof.
  intros H. induction p.
  - apply (upoly_ext d f); auto. intros; cbn; ring.
  - replace (2 * S p + d)%nat with (S (S (2 * p + d))) by lia.
    apply (up_add _ (fun x => x * (x * ((x ^ 2 + s) ^ p * f x))) (fun x => s * ((x ^ 2 + s) ^ p * f x))).
    + eapply up_x; [|intros; reflexivity]. eapply up_x; [exact IHp|]. intros; reflexivity.
    + apply (upoly_mono (2 * p + d)); [|lia]. eapply upoly_scale; [exact IHp|]. intros; reflexivity.
    + intros x. cbn [pow]. ring.
Qed.
Definition modepoly (prad : R) (j n m : Z) (x y : R) : R :=
  sqrt ((if (m =? 0)%Z then 1 else 2) * (IZR n + 1)) *
  rsum (fun k => radial_coef n m k * (/ prad) ^ Z.to_nat (n - 2 * k) *
    ((x ^ 2 + y ^ 2) ^ Z.to_nat ((n - m) / 2 - k) * (if (m =? 0)%Z || Z.even j then cre (Z.to_nat m) x y else cim (Z.to_nat m) x y))) ((n - m) / 2 + 1).
Lemma modepoly_ok prad Zf j n m x y : 0 < prad -> is_mode_fun prad Zf -> noll_index j n m -> Zf j x y = modepoly prad j n m x y.
Proof.
  intros Hp HZ J. pose proof J as (HM & HE & _).
  assert (exists rho th, polar_of x y rho th) as (rho & th & P).
  { exists (sqrt (x ^ 2 + y ^ 2)), (arctan2 y x). apply polar_ok. }
  rewrite (HZ j n m x y rho th J P). destruct P as (P1 & P2 & <- & <-).
  unfold modepoly, noll_zernike.
  destruct HE as [b Hb]. assert (Eb : ((n - m) / 2 = b)%Z) by (rewrite Hb, Z.mul_comm, Z.div_mul; lia). rewrite Eb.
  assert (R2 : (rho * cos th) ^ 2 + (rho * sin th) ^ 2 = rho ^ 2).
  { pose proof (sin2_cos2 th) as S2. unfold Rsqr in S2. replace ((rho * cos th) ^ 2 + (rho * sin th) ^ 2) with (rho ^ 2 * (sin th * sin th + cos th * cos th)) by ring. rewrite S2. ring. }
  destruct (cre_polar (Z.to_nat m) rho th) as [Cr Ci].
  assert (Im : INR (Z.to_nat m) = IZR m) by (rewrite INR_IZR_INZ; f_equal; lia). rewrite Im in Cr, Ci.
  assert (T : forall k w, (0 <= k < b + 1)%Z -> (/ prad) ^ Z.to_nat (n - 2 * k) * ((rho ^ 2) ^ Z.to_nat (b - k) * (rho ^ Z.to_nat m * w)) = (rho / prad) ^ Z.to_nat (n - 2 * k) * w).
  { intros k w Hk. unfold Rdiv. rewrite Rpow_mult_distr, <- pow_mult.
    replace (Z.to_nat (n - 2 * k)) with (2 * Z.to_nat (b - k) + Z.to_nat m)%nat by lia. rewrite !pow_add. ring. }
  unfold radial. rewrite Eb. destruct (Z.eqb_spec m 0) as [->|N]; cbn [orb].
  - rewrite Rmult_0_l, cos_0 in Cr. rewrite Rmult_1_l. f_equal. apply rsum_ext. intros k Hk. rewrite R2, Cr, Rmult_assoc.
    rewrite (T k 1 Hk), Rmult_1_r. reflexivity.
  - destruct (Z.even j).
    + rewrite Rmult_assoc. f_equal. rewrite <- rsum_scal_r. apply rsum_ext. intros k Hk. rewrite R2, Cr, !Rmult_assoc. f_equal. rewrite T by auto. reflexivity.
    + rewrite Rmult_assoc. f_equal. rewrite <- rsum_scal_r. apply rsum_ext. intros k Hk. rewrite R2, Ci, !Rmult_assoc. f_equal. rewrite T by auto. reflexivity.
Qed.
Lemma modepoly_x prad j n m y : (0 <= m <= n)%Z -> Z.Even (n - m) -> upoly (Z.to_nat n) (fun x => modepoly prad j n m x y).
Proof.
  intros HM [b Hb]. assert (Eb : ((n - m) / 2 = b)%Z) by (rewrite Hb, Z.mul_comm, Z.div_mul; lia).
  unfold modepoly. rewrite Eb. eapply upoly_scale; [|intros; reflexivity]. apply (upoly_rsum (Z.to_nat n) (fun k x => radial_coef n m k * (/ prad) ^ Z.to_nat (n - 2 * k) * ((x ^ 2 + y ^ 2) ^ Z.to_nat (b - k) * (if (m =? 0)%Z || Z.even j then cre (Z.to_nat m) x y else cim (Z.to_nat m) x y)))). intros k Hk.
  eapply upoly_scale; [|intros; reflexivity].
  apply (upoly_mono (2 * Z.to_nat (b - k) + Z.to_nat m)); [|lia].
  destruct (c_upoly_x (Z.to_nat m) y). apply (sq_upoly (Z.to_nat m) (fun x => if (m =? 0)%Z || Z.even j then cre (Z.to_nat m) x y else cim (Z.to_nat m) x y)). destruct ((m =? 0)%Z || Z.even j); auto.
Qed.
Lemma modepoly_y prad j n m x : (0 <= m <= n)%Z -> Z.Even (n - m) -> upoly (Z.to_nat n) (fun y => modepoly prad j n m x y).
Proof.
  intros HM [b Hb]. assert (Eb : ((n - m) / 2 = b)%Z) by (rewrite Hb, Z.mul_comm, Z.div_mul; lia).
  unfold modepoly. rewrite Eb. eapply upoly_scale; [|intros; reflexivity]. apply (upoly_rsum (Z.to_nat n) (fun k y => radial_coef n m k * (/ prad) ^ Z.to_nat (n - 2 * k) * ((x ^ 2 + y ^ 2) ^ Z.to_nat (b - k) * (if (m =? 0)%Z || Z.even j then cre (Z.to_nat m) x y else cim (Z.to_nat m) x y)))). intros k Hk.
  eapply upoly_scale; [|intros; reflexivity].
  apply (upoly_mono (2 * Z.to_nat (b - k) + Z.to_nat m)); [|lia].
  destruct (c_upoly_y (Z.to_nat m) x). eapply upoly_ext.
  - apply (sq_upoly (Z.to_nat m) (fun y => if (m =? 0)%Z || Z.even j then cre (Z.to_nat m) x y else cim (Z.to_nat m) x y) (x ^ 2) (Z.to_nat (b - k))).
    destruct ((m =? 0)%Z || Z.even j); auto.
  - intros y. cbv beta. rewrite (Rplus_comm (y ^ 2)). reflexivity.
Qed.
Lemma order_mono j j' n m n' m' : noll_index j n m -> noll_index j' n' m' -> (j <= j')%Z -> (n <= n')%Z.
Proof.
  intros A B L. apply noll_index_np1 in A, B. destruct A as (A0 & A1 & A2), B as (B0 & B1 & B2).
  pose proof (tri_spec (n + 1 - 1)). pose proof (tri_spec (n' + 1)). pose proof (tri_spec (n + 1)). pose proof (tri_spec (n' + 1 - 1)). nia.
Qed.
Lemma grid_independent prad Zf maxNoll d m dx dy wfe usable rows cols : 0 < prad -> is_mode_fun prad Zf ->
  noll_index maxNoll d m -> NoDup rows -> NoDup cols ->
  (d < Z.of_nat (length rows))%Z -> (d < Z.of_nat (length cols))%Z ->
  (forall r c, In r rows -> In c cols -> used usable r c) ->
  modes_independent maxNoll Zf dx dy wfe usable.
Proof.
  intros Hp HZ HN NR NC LR LC HU a H0.
  pose proof HN as (HM & _).
  set (F := fun x y => rsum (fun k => a k * Zf (k + 1)%Z x y) maxNoll).
  assert (nodes : forall (l : list Z) (s : R), NoDup l -> NoDup (map (fun i => IZR i - s) l)).
  { intros l s N. apply FinFun.Injective_map_NoDup; auto. intros u v E. apply eq_IZR. lra. }
  assert (term : forall k, (0 <= k < maxNoll)%Z -> noll_index (k + 1) (noll_n (k + 1)) (noll_m (k + 1)) /\ (noll_n (k + 1) <= d)%Z).
  { intros k Hk. assert (D : noll_index (k + 1) (noll_n (k + 1)) (noll_m (k + 1))) by (apply noll_decode; lia).
    split; auto. eapply order_mono; [exact D|exact HN|lia]. }
  assert (Px : forall y, upoly (Z.to_nat d) (fun x => F x y)).
  { intros y. apply (upoly_rsum _ (fun k x => a k * Zf (k + 1)%Z x y)). intros k Hk. destruct (term k Hk) as [D L].
    eapply upoly_scale; [|intros; reflexivity]. apply (upoly_ext _ (fun x => modepoly prad (k + 1) (noll_n (k + 1)) (noll_m (k + 1)) x y)).
    - apply (upoly_mono (Z.to_nat (noll_n (k + 1)))); [|lia]. destruct D as (D1 & D2 & _). apply modepoly_x; auto.
    - intros x. apply modepoly_ok; auto. }
  assert (Py : forall x, upoly (Z.to_nat d) (fun y => F x y)).
  { intros x. apply (upoly_rsum _ (fun k y => a k * Zf (k + 1)%Z x y)). intros k Hk. destruct (term k Hk) as [D L].
    eapply upoly_scale; [|intros; reflexivity]. apply (upoly_ext _ (fun y => modepoly prad (k + 1) (noll_n (k + 1)) (noll_m (k + 1)) x y)).
    - apply (upoly_mono (Z.to_nat (noll_n (k + 1)))); [|lia]. destruct D as (D1 & D2 & _). apply modepoly_y; auto.
    - intros y. apply modepoly_ok; auto. }
  assert (A : forall r, In r rows -> forall x, F x (IZR (r - nr wfe / 2) - dy) = 0).
  { intros r Hr. apply (upoly_zero (Z.to_nat d) (fun x => F x (IZR (r - nr wfe / 2) - dy)) (map (fun i => IZR i - (IZR (nc wfe / 2) + dx)) cols)); auto.
    - rewrite map_length. lia.
    - intros x Hx. apply in_map_iff in Hx as (c & <- & Hc). pose proof (H0 r c (HU r c Hr Hc)) as E. unfold mode_comb, mode_at in E.
      replace (IZR c - (IZR (nc wfe / 2) + dx)) with (IZR (c - nc wfe / 2) - dx) by (rewrite minus_IZR; ring). exact E. }
  assert (B : forall x y, F x y = 0).
  { intros x. apply (upoly_zero (Z.to_nat d) (fun y => F x y) (map (fun i => IZR i - (IZR (nr wfe / 2) + dy)) rows)); auto.
    - rewrite map_length. lia.
    - intros y Hy. apply in_map_iff in Hy as (r & <- & Hr).
      replace (IZR r - (IZR (nr wfe / 2) + dy)) with (IZR (r - nr wfe / 2) - dy) by (rewrite minus_IZR; ring). apply A; auto. }
  intros k Hk. destruct (values_exist prad Hp) as (Zg & HG).
  assert (Same : forall j x y, (1 <= j)%Z -> Zg j x y = Zf j x y).
  { intros j x y J. destruct (HG j x y J) as (arr & E & V).
    destruct (xyzern_ok (afull 1 1 x) (afull 1 1 y) prad [j] eq_refl eq_refl Hp) as (cube & E' & L & Q).
    { discriminate. } { intros i [<-|[]]. auto. }
    rewrite E in E'. injection E' as <-. destruct (Q 0%nat j arr eq_refl eq_refl) as (_ & _ & W).
    pose proof (noll_decode j J) as D.
    assert (P : polar_of x y (sqrt (x ^ 2 + y ^ 2)) (arctan2 y x)) by apply polar_ok.
    rewrite (HZ j _ _ x y _ _ D P), <- V. apply W; auto. split; cbn; lia. }
  apply (determined prad Zg Hp HG a (fun _ => 0) maxNoll); auto.
  intros x y _. transitivity (F x y).
  - apply rsum_ext. intros i Hi. rewrite Same by lia. reflexivity.
  - rewrite B. symmetry. apply rsum_all_zero. intros; ring.
Qed.

Lemma indep prad Zf maxNoll d m dx dy wfe usable : 0 < prad -> is_mode_fun prad Zf -> noll_index maxNoll d m ->
  has_grid usable d -> modes_independent maxNoll Zf dx dy wfe usable.
Proof. intros Hp HZ HN (rows & cols & H1 & H2 & H3 & H4 & H5). apply (grid_independent prad Zf maxNoll d m dx dy wfe usable rows cols); auto. Qed.
(** ** The fit *)
Section Unique.
Variables (maxNoll : Z) (Zf : Z -> R -> R -> R) (dx dy : R) (wfe usable : arr R).
Local Notation cmb := (mode_comb maxNoll Zf dx dy wfe).
Local Notation us := (usable_sum usable).
Lemma us_lin a b f g : us (fun r c => a * f r c + b * g r c) = a * us f + b * us g.
Proof.
  unfold usable_sum. rewrite <- !rsum2_scal, <- rsum2_add. apply rsum2_ext. intros. destruct (Req_EM_T _ _); ring.
Qed.
Lemma us_ext f g : (forall r c, used usable r c -> f r c = g r c) -> us f = us g.
Proof.
  intros H. unfold usable_sum. apply rsum2_ext. intros r c Hr Hc. destruct (Req_EM_T _ _); auto. apply H. split; [split|]; auto.
Qed.
Lemma us_rsum (f : Z -> Z -> Z -> R) n : us (fun r c => rsum (fun k => f k r c) n) = rsum (fun k => us (f k)) n.
Proof.
  destruct (Z_le_gt_dec 0 n) as [P|P].
  - pattern n. apply natlike_ind; auto.
    + rewrite rsum_0 by lia. unfold usable_sum. apply rsum2_all_zero. intros. rewrite rsum_0 by lia. destruct (Req_EM_T _ _); auto.
    + intros x Hx IH. unfold Z.succ. rewrite rsum_succ by lia. rewrite <- IH.
      transitivity (us (fun r c => 1 * rsum (fun k => f k r c) x + 1 * f x r c)); [|rewrite us_lin; ring].
      apply us_ext. intros. rewrite rsum_succ by lia. ring.
  - rewrite rsum_0 by lia. unfold usable_sum. apply rsum2_all_zero. intros. rewrite rsum_0 by lia. destruct (Req_EM_T _ _); auto.
Qed.
Lemma us_sq_zero f : us (fun r c => f r c ^ 2) = 0 -> forall r c, used usable r c -> f r c = 0.
Proof.
  intros H r c [[Hr Hc] N]. unfold usable_sum in H.
  assert (Q : (if Req_EM_T (at2 usable r c) 0 then 0 else f r c ^ 2) = 0).
  { apply (rsum2_nonneg_zero (fun r c => if Req_EM_T (at2 usable r c) 0 then 0 else f r c ^ 2) (nr usable) (nc usable)); auto.
    intros i j _ _. destruct (Req_EM_T _ _); [lra|apply pow2_ge_0]. }
  destruct (Req_EM_T _ _); [contradiction|]. nra.
Qed.
Lemma normal_unique v a : modes_independent maxNoll Zf dx dy wfe usable ->
  (forall k, (0 <= k < maxNoll)%Z -> us (fun r c => mode_at Zf dx dy wfe (k + 1) r c * (at2 wfe r c - cmb v r c)) = 0) ->
  (forall k, (0 <= k < maxNoll)%Z -> us (fun r c => mode_at Zf dx dy wfe (k + 1) r c * (at2 wfe r c - cmb a r c)) = 0) ->
  forall k, (0 <= k < maxNoll)%Z -> v k = a k.
Proof.
  intros I Hv Ha. set (w := fun k => v k - a k).
  assert (W : forall r c, cmb w r c = cmb v r c - cmb a r c).
  { intros. unfold mode_comb. rewrite <- rsum_sub. apply rsum_ext. intros. unfold w. ring. }
  assert (N : forall k, (0 <= k < maxNoll)%Z -> us (fun r c => mode_at Zf dx dy wfe (k + 1) r c * cmb w r c) = 0).
  { intros k Hk. transitivity (us (fun r c => 1 * (mode_at Zf dx dy wfe (k + 1) r c * (at2 wfe r c - cmb a r c)) + -1 * (mode_at Zf dx dy wfe (k + 1) r c * (at2 wfe r c - cmb v r c)))).
    - apply us_ext. intros. rewrite W. ring.
    - rewrite us_lin, Hv, Ha by auto. ring. }
  assert (S : us (fun r c => cmb w r c ^ 2) = 0).
  { transitivity (us (fun r c => rsum (fun k => w k * (mode_at Zf dx dy wfe (k + 1) r c * cmb w r c)) maxNoll)).
    - apply us_ext. intros. transitivity (cmb w r c * cmb w r c); [ring|]. unfold mode_comb at 1. rewrite <- rsum_scal_r. apply rsum_ext. intros; ring.
    - rewrite us_rsum. apply rsum_all_zero. intros k Hk.
      transitivity (us (fun r c => w k * (mode_at Zf dx dy wfe (k + 1) r c * cmb w r c) + 0 * 0)).
      { apply us_ext. intros; ring. }
      rewrite (us_lin (w k) 0 _ (fun _ _ => 0)), N by auto. ring. }
  intros k Hk. assert (w k = 0); [|unfold w in *; lra]. apply I; auto. intros r c U. apply (us_sq_zero (cmb w) S r c U).
Qed.
End Unique.
Section FitGrid.
Variables (usable : arr R) (maxNoll d m : Z) (nBeam dx dy : R).
Hypothesis HB : 0 < nBeam.
Hypothesis HN : noll_index maxNoll d m.
Hypothesis HG : has_grid usable d.
Variable Zf : Z -> R -> R -> R.
Hypothesis HZ : is_mode_fun (nBeam / 2) Zf.
Lemma grid_fit_unique lstsq wfe : is_lstsq_oracle lstsq -> nr wfe = nr usable -> nc wfe = nc usable ->
  exists v, fit_zernikes lstsq wfe usable maxNoll nBeam dx dy = Ok v /\
  forall a, (forall k, (0 <= k < maxNoll)%Z ->
      usable_sum usable (fun r c => mode_at Zf dx dy wfe (k + 1) r c * (at2 wfe r c - mode_comb maxNoll Zf dx dy wfe a r c)) = 0) <->
    (forall k, (0 <= k < maxNoll)%Z -> a k = v k).
Proof.
  intros L H1 H2. pose proof (noll_index_pos _ _ _ HN) as J.
  destruct (fit_orthogonal lstsq L wfe usable maxNoll nBeam dx dy H1 H2 J HB Zf HZ) as (v & E & N & _).
  exists v. split; auto. intros a. split.
  - intros A k Hk. apply (normal_unique maxNoll Zf dx dy wfe usable a v); auto. apply (indep (nBeam / 2) Zf maxNoll d m); auto. lra.
  - intros A k Hk. rewrite <- (N k Hk) at 1. apply us_ext. intros r c _. do 2 f_equal. apply rsum_ext. intros i Hi. rewrite A by auto. reflexivity.
Qed.
Lemma grid_fit_recovers lstsq wfe a : is_lstsq_oracle lstsq -> nr wfe = nr usable -> nc wfe = nc usable ->
  (forall r c, used usable r c -> at2 wfe r c = mode_comb maxNoll Zf dx dy wfe a r c) ->
  exists v, fit_zernikes lstsq wfe usable maxNoll nBeam dx dy = Ok v /\ forall k, (0 <= k < maxNoll)%Z -> v k = a k.
Proof.
  intros L H1 H2 E. apply (fit_recovers lstsq L wfe usable maxNoll nBeam dx dy H1 H2 (noll_index_pos _ _ _ HN) HB Zf HZ); auto.
  apply (indep (nBeam / 2) Zf maxNoll d m); auto. lra.
Qed.
Lemma grid_fit_linear lstsq lstsq1 lstsq2 w w1 w2 v v1 v2 s t :
  is_lstsq_oracle lstsq -> is_lstsq_oracle lstsq1 -> is_lstsq_oracle lstsq2 ->
  (forall r c, used usable r c -> at2 w r c = s * at2 w1 r c + t * at2 w2 r c) ->
  fit_zernikes lstsq w usable maxNoll nBeam dx dy = Ok v ->
  fit_zernikes lstsq1 w1 usable maxNoll nBeam dx dy = Ok v1 ->
  fit_zernikes lstsq2 w2 usable maxNoll nBeam dx dy = Ok v2 ->
  forall k, (0 <= k < maxNoll)%Z -> v k = s * v1 k + t * v2 k.
Proof.
  intros L L1 L2 E F F1 F2 k Hk. pose proof (noll_index_pos _ _ _ HN) as J.
  assert (sh : forall lst x u, fit_zernikes lst x usable maxNoll nBeam dx dy = Ok u -> nr x = nr usable /\ nc x = nc usable).
  { intros lst x u Q. unfold fit_zernikes, guard in Q. destruct (same_shape x usable) eqn:Es; [|discriminate]. unfold same_shape in Es. lia. }
  destruct (sh _ _ _ F) as [S1 S2], (sh _ _ _ F1) as [S3 S4], (sh _ _ _ F2) as [S5 S6].
  destruct (fit_orthogonal lstsq1 L1 w1 usable maxNoll nBeam dx dy S3 S4 J HB Zf HZ) as (u1 & E1 & N1 & _). rewrite F1 in E1. injection E1 as <-.
  destruct (fit_orthogonal lstsq2 L2 w2 usable maxNoll nBeam dx dy S5 S6 J HB Zf HZ) as (u2 & E2 & N2 & _). rewrite F2 in E2. injection E2 as <-.
  destruct (grid_fit_unique lstsq w L S1 S2) as (u & Eu & Q). rewrite F in Eu. injection Eu as <-.
  symmetry. revert k Hk. apply (proj1 (Q (fun k => s * v1 k + t * v2 k))). intros k Hk.
  transitivity (usable_sum usable (fun r c => s * (mode_at Zf dx dy w1 (k + 1) r c * (at2 w1 r c - mode_comb maxNoll Zf dx dy w1 v1 r c)) + t * (mode_at Zf dx dy w2 (k + 1) r c * (at2 w2 r c - mode_comb maxNoll Zf dx dy w2 v2 r c)))).
  - apply us_ext. intros r c U. rewrite (E r c U). unfold mode_comb, mode_at. rewrite S1, S2, S3, S4, S5, S6.
    rewrite (rsum_ext _ (fun i => s * (v1 i * Zf (i + 1)%Z (IZR (c - nc usable / 2) - dx) (IZR (r - nr usable / 2) - dy)) + t * (v2 i * Zf (i + 1)%Z (IZR (c - nc usable / 2) - dx) (IZR (r - nr usable / 2) - dy))) maxNoll) by (intros; ring).
    rewrite rsum_add, !rsum_scal. ring.
  - rewrite us_lin, N1, N2 by auto. ring.
Qed.
End FitGrid.
