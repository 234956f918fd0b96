(** The not-a-knot cubic spline exists and is unique; straight lines and cubics are reproduced. *)
From Coq Require Import List Reals Sorted Permutation Lra Lia Psatz.
From Verif.Spec Require Import SplineSpec.
Import ListNotations.
Open Scope R_scope.

(** ** The second derivatives at the knots *)
Section Moments.
  Variable m : nat.                                     (* m + 4 points *)
  Variables x y : nat -> R.
  Hypothesis inc : forall k, (k + 1 < m + 4)%nat -> x k < x (k + 1)%nat.
  Definition h k := x (k + 1)%nat - x k.
  Definition d k := 6 * ((y (k + 2)%nat - y (k + 1)%nat) / h (k + 1) - (y (k + 1)%nat - y k) / h k).
  Lemma h_pos k : (k + 1 < m + 4)%nat -> 0 < h k.
  Proof. intros H. unfold h. specialize (inc k H). lra. Qed.
  Definition moments (M : nat -> R) : Prop :=
    (forall k, (k + 2 < m + 4)%nat -> h k * M k + 2 * (h k + h (k + 1)) * M (k + 1)%nat + h (k + 1) * M (k + 2)%nat = d k) /\
    (M 1%nat - M 0%nat) * h 1 = (M 2%nat - M 1%nat) * h 0 /\
    (M (m + 2)%nat - M (m + 1)%nat) * h (m + 2) = (M (m + 3)%nat - M (m + 2)%nat) * h (m + 1).
  Fixpoint al (j : nat) : R :=
    match j with
    | 0%nat => (h 0 - h 1) / (h 0 + 2 * h 1)
    | S i => - h (i + 2) / (h (i + 1) * (2 + al i) + 2 * h (i + 2))
    end.
  Fixpoint be (j : nat) : R :=
    match j with
    | 0%nat => d 0 * h 1 / ((h 0 + h 1) * (h 0 + 2 * h 1))
    | S i => (d (i + 1) - h (i + 1) * be i) / (h (i + 1) * (2 + al i) + 2 * h (i + 2))
    end.
  Lemma al_bounds j : (j + 2 < m + 4)%nat -> - 1 / 2 < al j < 1.
  Proof.
    induction j as [|j IH]; intros H; cbn [al].
    - pose proof (h_pos 0 ltac:(lia)). pose proof (h_pos 1 ltac:(lia)).
      split; [apply Rmult_lt_reg_r with (h 0 + 2 * h 1)|apply Rmult_lt_reg_r with (h 0 + 2 * h 1)]; try lra;
        unfold Rdiv; rewrite ?Rmult_assoc, ?Rinv_l by lra; lra.
    - specialize (IH ltac:(lia)). pose proof (h_pos (j + 1) ltac:(lia)). pose proof (h_pos (j + 2) ltac:(lia)).
      assert (P : 0 < h (j + 1) * (2 + al j)) by (apply Rmult_lt_0_compat; lra).
      set (D := h (j + 1) * (2 + al j) + 2 * h (j + 2)) in *.
      assert (0 < D) by (unfold D; lra).
      split; apply Rmult_lt_reg_r with D; auto; unfold Rdiv; rewrite ?Rmult_assoc, ?Rinv_l by lra; unfold D; lra.
  Qed.
  Lemma al_neg j : (j + 3 < m + 4)%nat -> al (S j) < 0.
  Proof.
    intros H. cbn [al]. pose proof (al_bounds j ltac:(lia)). pose proof (h_pos (j + 1) ltac:(lia)). pose proof (h_pos (j + 2) ltac:(lia)).
    assert (P : 0 < h (j + 1) * (2 + al j)) by (apply Rmult_lt_0_compat; lra).
    unfold Rdiv. assert (0 < / (h (j + 1) * (2 + al j) + 2 * h (j + 2))) by (apply Rinv_0_lt_compat; lra). nra.
  Qed.
  Lemma den_pos j : (j + 3 < m + 4)%nat -> 0 < h (j + 1) * (2 + al j) + 2 * h (j + 2).
  Proof.
    intros H. pose proof (al_bounds j ltac:(lia)). pose proof (h_pos (j + 1) ltac:(lia)). pose proof (h_pos (j + 2) ltac:(lia)).
    assert (P : 0 < h (j + 1) * (2 + al j)) by (apply Rmult_lt_0_compat; lra). lra.
  Qed.
  Lemma eliminate M : moments M -> forall j, (j + 2 < m + 4)%nat -> M (j + 1)%nat = al j * M (j + 2)%nat + be j.
  Proof.
    intros (Row & First & _). induction j as [|j IH]; intros H.
    - cbn [al be Nat.add]. specialize (Row 0%nat ltac:(lia)). cbn [Nat.add] in Row.
      pose proof (h_pos 0 ltac:(lia)). pose proof (h_pos 1 ltac:(lia)).
      assert (E : M 0%nat = M 1%nat - (M 2%nat - M 1%nat) * h 0 / h 1).
      { apply Rmult_eq_reg_r with (h 1); [|lra]. unfold Rdiv. rewrite Rmult_minus_distr_r.
        replace ((M 2%nat - M 1%nat) * h 0 * / h 1 * h 1) with ((M 2%nat - M 1%nat) * h 0) by (field; lra). lra. }
      assert (N : (h 0 + h 1) * (h 0 + 2 * h 1) <> 0) by (apply Rgt_not_eq; apply Rmult_lt_0_compat; lra).
      apply Rmult_eq_reg_r with ((h 0 + h 1) * (h 0 + 2 * h 1)); auto.
      rewrite <- Row, E. field. lra.
    - specialize (IH ltac:(lia)). pose proof (den_pos j ltac:(lia)) as P.
      specialize (Row (j + 1)%nat ltac:(lia)). replace (j + 1 + 1)%nat with (j + 2)%nat in Row by lia. replace (j + 1 + 2)%nat with (j + 3)%nat in Row by lia.
      replace (S j + 1)%nat with (j + 2)%nat by lia. replace (S j + 2)%nat with (j + 3)%nat by lia. cbn [al be].
      apply Rmult_eq_reg_r with (h (j + 1) * (2 + al j) + 2 * h (j + 2)); [|lra].
      rewrite IH in Row. rewrite <- Row. field. lra.
  Qed.
  (** The last interior second derivative. *)
  Definition ratio := h (m + 2) / h (m + 1).
  Definition last_moment : R :=
    (be (m + 1) - al (m + 1) * ratio * be m) / (1 - al (m + 1) * (1 + ratio * (1 - al m))).
  Lemma ratio_pos : 0 < ratio.
  Proof. unfold ratio. apply Rdiv_lt_0_compat; apply h_pos; lia. Qed.
  Lemma last_den : 0 < 1 - al (m + 1) * (1 + ratio * (1 - al m)).
  Proof.
    pose proof ratio_pos as Rp. pose proof (al_bounds m ltac:(lia)) as [_ U]. pose proof (al_neg m ltac:(lia)) as N.
    replace (m + 1)%nat with (S m) by lia.
    assert (P : 0 < ratio * (1 - al m)) by (apply Rmult_lt_0_compat; lra). nra.
  Qed.
  Lemma last_eq M : moments M -> M (m + 2)%nat = last_moment.
  Proof.
    intros H. pose proof (eliminate M H m ltac:(lia)) as E1. pose proof (eliminate M H (m + 1) ltac:(lia)) as E2.
    replace (m + 1 + 1)%nat with (m + 2)%nat in E2 by lia. replace (m + 1 + 2)%nat with (m + 3)%nat in E2 by lia.
    destruct H as (_ & _ & L). pose proof last_den as D. pose proof (h_pos (m + 1) ltac:(lia)) as P.
    assert (E3 : M (m + 3)%nat = M (m + 2)%nat + (M (m + 2)%nat - M (m + 1)%nat) * ratio).
    { apply Rmult_eq_reg_r with (h (m + 1)); [|lra]. unfold ratio.
      replace ((M (m + 2)%nat + (M (m + 2)%nat - M (m + 1)%nat) * (h (m + 2) / h (m + 1))) * h (m + 1))
        with (M (m + 2)%nat * h (m + 1) + (M (m + 2)%nat - M (m + 1)%nat) * h (m + 2)) by (field; lra). lra. }
    unfold last_moment. apply Rmult_eq_reg_r with (1 - al (m + 1) * (1 + ratio * (1 - al m))); [|lra].
    unfold Rdiv. rewrite Rmult_assoc, Rinv_l by lra. rewrite E3, E1 in E2. lra.
  Qed.
  (** back i is the second derivative at knot m + 2 - i. *)
  Fixpoint back (i : nat) : R :=
    match i with
    | 0%nat => last_moment
    | S i' => al (m - i') * back i' + be (m - i')
    end.
  Definition solution (k : nat) : R :=
    if Nat.eqb k 0 then back (m + 1) - (back m - back (m + 1)) * h 0 / h 1
    else if Nat.leb k (m + 2) then back (m + 2 - k)
    else back 0 + (back 0 - back 1) * ratio.
  Lemma solution_mid k : (0 < k <= m + 2)%nat -> solution k = back (m + 2 - k).
  Proof.
    intros H. unfold solution. rewrite (proj2 (Nat.eqb_neq _ _)) by lia. rewrite (proj2 (Nat.leb_le _ _)) by lia. reflexivity.
  Qed.
  Lemma solution_step j : (j + 2 < m + 4)%nat -> solution (j + 1) = al j * solution (j + 2) + be j.
  Proof.
    intros H. destruct (Nat.eq_dec j (m + 1)) as [->|N].
    - rewrite (solution_mid (m + 1 + 1)) by lia. replace (m + 2 - (m + 1 + 1))%nat with 0%nat by lia.
      unfold solution. rewrite (proj2 (Nat.eqb_neq _ _)) by lia. rewrite (proj2 (Nat.leb_gt _ _)) by lia.
      cbn [back]. rewrite Nat.sub_0_r. unfold last_moment. pose proof last_den. field. lra.
    - rewrite !solution_mid by lia. replace (m + 2 - (j + 1))%nat with (S (m + 2 - (j + 2))) by lia. cbn [back].
      replace (m - (m + 2 - (j + 2)))%nat with j by lia. reflexivity.
  Qed.
  Lemma solution_ok : moments solution.
  Proof.
    split; [|split].
    - intros k Hk. destruct k as [|k].
      + pose proof (solution_step 0 ltac:(lia)) as S0. cbn [Nat.add al be] in *.
        assert (E : solution 0 = solution 1 - (solution 2 - solution 1) * h 0 / h 1).
        { rewrite (solution_mid 1), (solution_mid 2) by lia. unfold solution. cbn [Nat.eqb].
          replace (m + 2 - 1)%nat with (m + 1)%nat by lia. replace (m + 2 - 2)%nat with m by lia. reflexivity. }
        rewrite E, S0. pose proof (h_pos 0 ltac:(lia)). pose proof (h_pos 1 ltac:(lia)). field. lra.
      + pose proof (solution_step k ltac:(lia)) as S0. pose proof (solution_step (S k) ltac:(lia)) as S1.
        replace (S k + 1)%nat with (k + 2)%nat in * by lia. replace (S k + 2)%nat with (k + 3)%nat in * by lia.
        replace (S k) with (k + 1)%nat by lia. replace (S k) with (k + 1)%nat in S1 by lia.
        rewrite S0, S1. replace (k + 1)%nat with (S k) by lia. cbn [al be]. replace (S k) with (k + 1)%nat by lia.
        pose proof (den_pos k ltac:(lia)). field. lra.
    - rewrite (solution_mid 1), (solution_mid 2) by lia. unfold solution. cbn [Nat.eqb].
      replace (m + 2 - 1)%nat with (m + 1)%nat by lia. replace (m + 2 - 2)%nat with m by lia.
      pose proof (h_pos 1 ltac:(lia)). field. lra.
    - rewrite (solution_mid (m + 2)), (solution_mid (m + 1)) by lia. unfold solution. rewrite (proj2 (Nat.eqb_neq _ _)) by lia. rewrite (proj2 (Nat.leb_gt _ _)) by lia.
      replace (m + 2 - (m + 2))%nat with 0%nat by lia. replace (m + 2 - (m + 1))%nat with 1%nat by lia.
      unfold ratio. pose proof (h_pos (m + 1) ltac:(lia)). field. lra.
  Qed.
  Lemma solution_unique M : moments M -> forall k, (k < m + 4)%nat -> M k = solution k.
  Proof.
    intros H. assert (A : forall i, (i <= m + 1)%nat -> M (m + 2 - i)%nat = solution (m + 2 - i)).
    { induction i as [|i IH]; intros Hi.
      - rewrite Nat.sub_0_r, (last_eq M H), (last_eq solution solution_ok). reflexivity.
      - pose proof (eliminate M H (m - i) ltac:(lia)) as E. pose proof (eliminate solution solution_ok (m - i) ltac:(lia)) as E'.
        replace (m - i + 1)%nat with (m + 2 - S i)%nat in * by lia. replace (m - i + 2)%nat with (m + 2 - i)%nat in * by lia.
        rewrite E, E', IH by lia. reflexivity. }
    assert (B : forall k, (0 < k <= m + 2)%nat -> M k = solution k).
    { intros k Hk. specialize (A (m + 2 - k)%nat ltac:(lia)). replace (m + 2 - (m + 2 - k))%nat with k in A by lia. exact A. }
    intros k Hk. destruct (Nat.eq_dec k 0) as [->|N0]; [|destruct (Nat.eq_dec k (m + 3)) as [->|N3]; [|apply B; lia]].
    - destruct H as (_ & F & _). pose proof solution_ok as (_ & F' & _). rewrite (B 1%nat), (B 2%nat) in F by lia.
      pose proof (h_pos 1 ltac:(lia)). apply Rmult_eq_reg_r with (h 1); lra.
    - destruct H as (_ & _ & L). pose proof solution_ok as (_ & _ & L'). rewrite (B (m + 1)%nat), (B (m + 2)%nat) in L by lia.
      pose proof (h_pos (m + 1) ltac:(lia)). apply Rmult_eq_reg_r with (h (m + 1)); lra.
  Qed.
End Moments.

(** ** One piece: a cubic is given by its values and second derivatives at two points *)
Lemma slope_left p a b : a < b -> slope p a = (val p b - val p a) / (b - a) - (b - a) * (2 * bend p a + bend p b) / 6.
Proof. intros H. unfold slope, val, bend. field. lra. Qed.
Lemma slope_right p a b : a < b -> slope p b = (val p b - val p a) / (b - a) + (b - a) * (bend p a + 2 * bend p b) / 6.
Proof. intros H. unfold slope, val, bend. field. lra. Qed.
Lemma third p a b : a < b -> q3 p = (bend p b - bend p a) / (6 * (b - a)).
Proof. intros H. unfold bend. field. lra. Qed.
Lemma cubic_eq p q a b : a < b -> val p a = val q a -> val p b = val q b -> bend p a = bend q a -> bend p b = bend q b -> p = q.
Proof.
  intros H Va Vb Ba Bb. pose proof (third p a b H) as T. rewrite Ba, Bb in T. rewrite <- (third q a b H) in T.
  assert (T2 : q2 p = q2 q) by (unfold bend in Ba; rewrite T in Ba; lra).
  pose proof (slope_left p a b H) as S1. rewrite Va, Vb, Ba, Bb, <- (slope_left q a b H) in S1.
  assert (T1 : q1 p = q1 q) by (unfold slope in S1; rewrite T, T2 in S1; lra).
  assert (T0 : q0 p = q0 q) by (unfold val in Va; rewrite T, T2, T1 in Va; lra).
  destruct p, q; cbn in *; subst; reflexivity.
Qed.
(** The cubic with values u, v and second derivatives s, t at a, b. *)
Definition make (a b u v s t : R) : cubic :=
  let H := b - a in
  let c3 := (t - s) / (6 * H) in
  let c2 := (s - 6 * c3 * a) / 2 in
  let c1 := (v - u) / H - c2 * (a + b) - c3 * (a ^ 2 + a * b + b ^ 2) in
  Cubic (u - c1 * a - c2 * a ^ 2 - c3 * a ^ 3) c1 c2 c3.
Lemma make_ok a b u v s t : a < b -> val (make a b u v s t) a = u /\ val (make a b u v s t) b = v /\
  bend (make a b u v s t) a = s /\ bend (make a b u v s t) b = t.
Proof. intros H. unfold make, val, bend; cbn [q0 q1 q2 q3]. repeat split; field; lra. Qed.

(** ** From pieces to second derivatives and back *)
Section Points.
  Variable l : list (R * R).
  Variable m : nat.
  Hypothesis len_l : length l = (m + 4)%nat.
  Hypothesis sorted : StronglySorted Rlt (map fst l).
  Lemma knot_inc k : (k + 1 < m + 4)%nat -> knot l k < knot l (k + 1).
  Proof.
    intros H. unfold knot. rewrite <- !(map_nth fst). cbn [fst].
    assert (L : (k + 1 < length (map fst l))%nat) by (rewrite map_length; lia).
    revert L. generalize (map fst l) sorted. clear. induction k as [|k IH]; intros [|a [|b r]] S; cbn [length]; intros L; try lia.
    - cbn. apply StronglySorted_inv in S as [_ F]. inversion F; auto.
    - inversion S as [|? ? S' F]; subst. cbn [nth]. apply (IH (b :: r)); auto. cbn [length]. lia.
  Qed.
  Notation x := (knot l).
  Notation y := (level l).
  Definition pieces_ok (P : nat -> cubic) : Prop :=
    (forall k, (k + 1 < m + 4)%nat -> val (P k) (x k) = y k /\ val (P k) (x (k + 1)%nat) = y (k + 1)%nat) /\
    (forall k, (k + 2 < m + 4)%nat -> slope (P k) (x (k + 1)%nat) = slope (P (k + 1)%nat) (x (k + 1)%nat) /\
       bend (P k) (x (k + 1)%nat) = bend (P (k + 1)%nat) (x (k + 1)%nat)) /\
    q3 (P 0%nat) = q3 (P 1%nat) /\ q3 (P (m + 1)%nat) = q3 (P (m + 2)%nat).
  Definition bend_at (P : nat -> cubic) (k : nat) : R :=
    if Nat.leb k (m + 2) then bend (P k) (x k) else bend (P (m + 2)%nat) (x (m + 3)%nat).
  Lemma bend_at_lo P k : (k <= m + 2)%nat -> bend_at P k = bend (P k) (x k).
  Proof. intros H. unfold bend_at. rewrite (proj2 (Nat.leb_le _ _)) by lia. reflexivity. Qed.
  Lemma bend_at_hi P k : pieces_ok P -> (k <= m + 2)%nat -> bend_at P (k + 1) = bend (P k) (x (k + 1)%nat).
  Proof.
    intros (_ & C & _) H. unfold bend_at. destruct (Nat.leb_spec (k + 1) (m + 2)).
    - symmetry. apply C. lia.
    - assert (k = m + 2)%nat as -> by lia. replace (m + 2 + 1)%nat with (m + 3)%nat by lia. reflexivity.
  Qed.
  Lemma pieces_moments P : pieces_ok P -> moments m x y (bend_at P).
  Proof.
    intros H. pose proof H as (V & C & F & L). split; [|split].
    - intros k Hk. destruct (C k Hk) as [Sl Be].
      pose proof (knot_inc k ltac:(lia)) as I0. pose proof (knot_inc (k + 1) ltac:(lia)) as I1.
      rewrite (slope_right _ (x k) (x (k + 1)%nat) I0) in Sl. rewrite (slope_left _ (x (k + 1)%nat) (x (k + 1 + 1)%nat) I1) in Sl.
      destruct (V k ltac:(lia)) as [V0 V1]. destruct (V (k + 1)%nat ltac:(lia)) as [V2 V3]. rewrite V0, V1, V2, V3 in Sl.
      rewrite (bend_at_lo P k) by lia.
      replace (k + 2)%nat with (k + 1 + 1)%nat by lia.
      rewrite (bend_at_hi P (k + 1)) by (auto; lia). rewrite (bend_at_lo P (k + 1)) by lia.
      rewrite Be in Sl. unfold d, h. replace (k + 2)%nat with (k + 1 + 1)%nat by lia.
      set (A := (y (k + 1 + 1)%nat - y (k + 1)%nat) / (x (k + 1 + 1)%nat - x (k + 1)%nat)) in *.
      set (B := (y (k + 1)%nat - y k) / (x (k + 1)%nat - x k)) in *.
      replace (A - B) with ((x (k + 1)%nat - x k) * (bend (P k) (x k) + 2 * bend (P (k + 1)%nat) (x (k + 1)%nat)) / 6 +
         (x (k + 1 + 1)%nat - x (k + 1)%nat) * (2 * bend (P (k + 1)%nat) (x (k + 1)%nat) + bend (P (k + 1)%nat) (x (k + 1 + 1)%nat)) / 6) by lra.
      field.
    - pose proof (knot_inc 0 ltac:(lia)) as I0. pose proof (knot_inc 1 ltac:(lia)) as I1. cbn [Nat.add] in *.
      rewrite (third (P 0%nat) _ _ I0), (third (P 1%nat) _ _ I1) in F.
      pose proof (bend_at_hi P 0 H ltac:(lia)) as E1. pose proof (bend_at_hi P 1 H ltac:(lia)) as E2. cbn [Nat.add] in *.
      pose proof (bend_at_lo P 1 ltac:(lia)) as E3. rewrite E2, (bend_at_lo P 0) by lia. rewrite E1. unfold h. cbn [Nat.add].
      assert (E4 : bend (P 0%nat) (x 1%nat) = bend (P 1%nat) (x 1%nat)) by lra. rewrite E4 in *. clear E4.
      apply (f_equal (fun t => t * (6 * (x 1%nat - x 0%nat) * (x 2%nat - x 1%nat)))) in F.
      field_simplify in F; [|lra|lra]. lra.
    - pose proof (knot_inc (m + 1) ltac:(lia)) as I0. pose proof (knot_inc (m + 2) ltac:(lia)) as I1.
      rewrite (third (P (m + 1)%nat) _ _ I0), (third (P (m + 2)%nat) _ _ I1) in L.
      pose proof (bend_at_hi P (m + 1) H ltac:(lia)) as E1. pose proof (bend_at_hi P (m + 2) H ltac:(lia)) as E2.
      replace (m + 1 + 1)%nat with (m + 2)%nat in * by lia. replace (m + 2 + 1)%nat with (m + 3)%nat in * by lia.
      pose proof (bend_at_lo P (m + 2) ltac:(lia)) as E3. rewrite E2, (bend_at_lo P (m + 1)) by lia. rewrite E1. unfold h.
      replace (m + 1 + 1)%nat with (m + 2)%nat by lia. replace (m + 2 + 1)%nat with (m + 3)%nat by lia.
      assert (E4 : bend (P (m + 1)%nat) (x (m + 2)%nat) = bend (P (m + 2)%nat) (x (m + 2)%nat)) by lra. rewrite E4 in *. clear E4.
      apply (f_equal (fun t => t * (6 * (x (m + 2)%nat - x (m + 1)%nat) * (x (m + 3)%nat - x (m + 2)%nat)))) in L.
      field_simplify in L; [|lra|lra]. lra.
  Qed.
  Lemma pieces_unique P Q : pieces_ok P -> pieces_ok Q -> forall k, (k + 1 < m + 4)%nat -> P k = Q k.
  Proof.
    intros HP HQ k Hk. pose proof (solution_unique m x y knot_inc _ (pieces_moments P HP)) as UP.
    pose proof (solution_unique m x y knot_inc _ (pieces_moments Q HQ)) as UQ.
    assert (E : forall j, (j < m + 4)%nat -> bend_at P j = bend_at Q j) by (intros j Hj; rewrite UP, UQ by auto; reflexivity).
    apply (cubic_eq _ _ (x k) (x (k + 1)%nat)); [apply knot_inc; auto| | | |].
    - destruct HP as (V & _), HQ as (W & _). rewrite (proj1 (V k Hk)), (proj1 (W k Hk)). reflexivity.
    - destruct HP as (V & _), HQ as (W & _). rewrite (proj2 (V k Hk)), (proj2 (W k Hk)). reflexivity.
    - rewrite <- !bend_at_lo by lia. apply E. lia.
    - rewrite <- !bend_at_hi by (auto; lia). apply E. lia.
  Qed.
  (** Existence *)
  Definition piece_ref (k : nat) : cubic :=
    make (x k) (x (k + 1)%nat) (y k) (y (k + 1)%nat) (solution m x y k) (solution m x y (k + 1)).
  Lemma piece_ref_ok : pieces_ok piece_ref.
  Proof.
    pose proof (solution_ok m x y knot_inc) as (Row & F & L).
    set (s := solution m x y) in *.
    assert (K : forall k, (k + 1 < m + 4)%nat -> val (piece_ref k) (x k) = y k /\ val (piece_ref k) (x (k + 1)%nat) = y (k + 1)%nat /\
       bend (piece_ref k) (x k) = s k /\ bend (piece_ref k) (x (k + 1)%nat) = s (k + 1)%nat)
      by (intros k Hk; apply make_ok, knot_inc; auto).
    split; [|split; [|split]].
    - intros k Hk. split; apply K; auto.
    - intros k Hk. destruct (K k ltac:(lia)) as (V0 & V1 & B0 & B1). destruct (K (k + 1)%nat ltac:(lia)) as (V2 & V3 & B2 & B3).
      split; [|rewrite B1, B2; reflexivity].
      pose proof (knot_inc k ltac:(lia)) as I0. pose proof (knot_inc (k + 1) ltac:(lia)) as I1.
      rewrite (slope_right _ (x k) (x (k + 1)%nat) I0), (slope_left _ (x (k + 1)%nat) (x (k + 1 + 1)%nat) I1).
      rewrite V0, V1, V2, V3, B0, B1, B2, B3. specialize (Row k Hk). unfold d, h in Row.
      replace (k + 2)%nat with (k + 1 + 1)%nat in Row by lia. lra.
    - pose proof (knot_inc 0 ltac:(lia)) as I0. pose proof (knot_inc 1 ltac:(lia)) as I1.
      destruct (K 0%nat ltac:(lia)) as (_ & _ & B0 & B1). destruct (K 1%nat ltac:(lia)) as (_ & _ & B2 & B3). cbn [Nat.add] in *.
      rewrite (third _ _ _ I0), (third _ _ _ I1), B0, B1, B2, B3. unfold h in F. cbn [Nat.add] in F.
      apply Rmult_eq_reg_r with (6 * (x 1%nat - x 0%nat) * (x 2%nat - x 1%nat)); [field_simplify; lra|].
      apply Rmult_integral_contrapositive_currified; lra.
    - pose proof (knot_inc (m + 1) ltac:(lia)) as I0. pose proof (knot_inc (m + 2) ltac:(lia)) as I1.
      destruct (K (m + 1)%nat ltac:(lia)) as (_ & _ & B0 & B1). destruct (K (m + 2)%nat ltac:(lia)) as (_ & _ & B2 & B3).
      unfold h in L.
      replace (m + 1 + 1)%nat with (m + 2)%nat in * by lia. replace (m + 2 + 1)%nat with (m + 3)%nat in * by lia.
      rewrite (third _ _ _ I0), (third _ _ _ I1), B0, B1, B2, B3.
      apply Rmult_eq_reg_r with (6 * (x (m + 2)%nat - x (m + 1)%nat) * (x (m + 3)%nat - x (m + 2)%nat)); [field_simplify; lra|].
      apply Rmult_integral_contrapositive_currified; lra.
  Qed.
  Lemma spline_pieces s : cubic_spline l s -> exists P, pieces_ok P /\
    forall k t, (k + 1 < m + 4)%nat -> x k <= t <= x (k + 1)%nat -> s t = val (P k) t.
  Proof.
    intros (P & V & I & C & F & L). rewrite len_l in *. exists P. split; [|exact V].
    replace (m + 4 - 3)%nat with (m + 1)%nat in L by lia. replace (m + 4 - 2)%nat with (m + 2)%nat in L by lia.
    split; [|split; [exact C|split; auto]].
    intros k Hk. pose proof (knot_inc k Hk). split.
    - rewrite <- I by lia. symmetry. apply V; auto. lra.
    - rewrite <- I by lia. symmetry. apply V; auto. lra.
  Qed.
  Lemma bracket t k : (k < m + 4)%nat -> x 0%nat <= t <= x k -> (0 < k)%nat -> exists j, (j + 1 < m + 4)%nat /\ x j <= t <= x (j + 1)%nat.
  Proof.
    induction k as [|k IH]; intros Hk Ht P; [lia|]. destruct (Rle_lt_dec (x k) t) as [G|G].
    - exists k. replace (k + 1)%nat with (S k) by lia. split; [lia|lra].
    - destruct k as [|k]; [lra|]. apply IH; try lia. lra.
  Qed.
  Lemma spline_unique s s' : cubic_spline l s -> cubic_spline l s' -> forall t, x 0%nat <= t <= x (m + 3)%nat -> s t = s' t.
  Proof.
    intros H H' t Ht. destruct (spline_pieces s H) as (P & OP & VP). destruct (spline_pieces s' H') as (Q & OQ & VQ).
    destruct (bracket t (m + 3) ltac:(lia) Ht ltac:(lia)) as (j & Hj & Bj).
    rewrite (VP j t Hj Bj), (VQ j t Hj Bj), (pieces_unique P Q OP OQ j Hj). reflexivity.
  Qed.
  Lemma spline_cubic s p : cubic_spline l s -> (forall k, (k < m + 4)%nat -> y k = val p (x k)) ->
    forall t, x 0%nat <= t <= x (m + 3)%nat -> s t = val p t.
  Proof.
    intros H E. apply (spline_unique s (val p) H). exists (fun _ => p). rewrite len_l.
    split; [reflexivity|]. split; [intros k Hk; symmetry; apply E; auto|]. repeat split; reflexivity.
  Qed.
  Fixpoint pick (k : nat) (t : R) : R :=
    match k with
    | 0%nat => val (piece_ref 0) t
    | S j => if Rle_dec (x k) t then val (piece_ref k) t else pick j t
    end.
  Lemma knot_mono j k : (j < k < m + 4)%nat -> x j < x k.
  Proof.
    intros [H Hk]. induction k as [|k IH]; [lia|]. destruct (Nat.eq_dec j k) as [->|N].
    - pose proof (knot_inc k ltac:(lia)). replace (S k) with (k + 1)%nat by lia. auto.
    - specialize (IH ltac:(lia) ltac:(lia)). pose proof (knot_inc k ltac:(lia)). replace (S k) with (k + 1)%nat by lia. lra.
  Qed.
  Lemma pick_ok k j t : (k <= m + 2)%nat -> (j <= k)%nat -> x j <= t <= x (j + 1)%nat -> pick k t = val (piece_ref j) t.
  Proof.
    induction k as [|k IH]; intros Hk Hj Ht.
    - assert (j = 0)%nat as -> by lia. reflexivity.
    - cbn [pick]. destruct (Rle_dec (x (S k)) t) as [G|G].
      + destruct (Nat.eq_dec j (S k)) as [->|N]; [reflexivity|].
        assert (j = k).
        { destruct (Nat.eq_dec j k); auto. pose proof (knot_mono (j + 1) (S k) ltac:(lia)). lra. }
        subst j. replace (k + 1)%nat with (S k) in Ht by lia. assert (t = x (S k)) as -> by lra.
        pose proof piece_ref_ok as (V & _). rewrite (proj1 (V (S k) ltac:(lia))).
        pose proof (proj2 (V k ltac:(lia))) as W. replace (k + 1)%nat with (S k) in W by lia. rewrite W. reflexivity.
      + apply IH; auto; try lia. destruct (Nat.eq_dec j (S k)) as [->|N]; [lra|lia].
  Qed.
  Lemma pick_spline : cubic_spline l (pick (m + 2)).
  Proof.
    pose proof piece_ref_ok as (V & C & F & L). exists piece_ref. rewrite len_l.
    replace (m + 4 - 3)%nat with (m + 1)%nat by lia. replace (m + 4 - 2)%nat with (m + 2)%nat by lia.
    split; [|split; [|split; [exact C|split; auto]]].
    - intros k t Hk Ht. apply pick_ok; auto; lia.
    - intros k Hk. destruct (Nat.eq_dec k (m + 3)) as [->|N].
      + rewrite (pick_ok _ (m + 2)); try lia.
        * pose proof (proj2 (V (m + 2)%nat ltac:(lia))) as W. replace (m + 2 + 1)%nat with (m + 3)%nat in W by lia. exact W.
        * pose proof (knot_inc (m + 2) ltac:(lia)). replace (m + 2 + 1)%nat with (m + 3)%nat in * by lia. lra.
      + rewrite (pick_ok _ k); try lia.
        * apply V. lia.
        * pose proof (knot_inc k ltac:(lia)). lra.
  Qed.
End Points.

(** ** Points in any order *)
Fixpoint ins (p : R * R) (l : list (R * R)) : list (R * R) :=
  match l with
  | [] => [p]
  | q :: l' => if Rle_dec (fst p) (fst q) then p :: l else q :: ins p l'
  end.
Fixpoint isort (l : list (R * R)) : list (R * R) := match l with [] => [] | p :: l' => ins p (isort l') end.
Lemma ins_perm p l : Permutation (p :: l) (ins p l).
Proof.
  induction l as [|q l IH]; cbn [ins]; auto. destruct (Rle_dec (fst p) (fst q)); auto.
  eapply perm_trans; [apply perm_swap|]. apply perm_skip. exact IH.
Qed.
Lemma isort_perm l : Permutation l (isort l).
Proof. induction l as [|p l IH]; cbn [isort]; auto. eapply perm_trans; [apply perm_skip; exact IH|apply ins_perm]. Qed.
Lemma ins_sorted p l : ~ In (fst p) (map fst l) -> StronglySorted Rlt (map fst l) -> StronglySorted Rlt (map fst (ins p l)).
Proof.
  induction l as [|q l IH]; cbn [ins map]; intros N S; [repeat constructor|].
  inversion S as [|? ? S' F]; subst. destruct (Rle_dec (fst p) (fst q)) as [G|G]; cbn [map].
  - assert (fst p <> fst q) by (intros E; apply N; left; auto). assert (L : fst p < fst q) by lra.
    constructor; auto. constructor; auto. eapply Forall_impl; [|exact F]. intros a Ha. lra.
  - constructor; [apply IH; auto; intros I; apply N; right; auto|].
    apply Forall_forall. intros a Ha. apply in_map_iff in Ha as (r & <- & Ir).
    apply (Permutation_in r (Permutation_sym (ins_perm p l))) in Ir. destruct Ir as [<-|Ir]; [lra|].
    rewrite Forall_forall in F. apply F. apply in_map. exact Ir.
Qed.
Lemma isort_sorted l : NoDup (map fst l) -> StronglySorted Rlt (map fst (isort l)).
Proof.
  induction l as [|p l IH]; cbn [isort map]; intros N; [constructor|]. inversion N; subst.
  apply ins_sorted; auto. intros I. apply H1. eapply Permutation_in; [|exact I]. apply Permutation_map, Permutation_sym, isort_perm.
Qed.
Lemma sorted_unique (l r : list (R * R)) : Permutation l r -> StronglySorted Rlt (map fst l) -> StronglySorted Rlt (map fst r) -> l = r.
Proof.
  revert r. induction l as [|p l IH]; intros r P Sl Sr.
  - symmetry. apply Permutation_nil. exact P.
  - destruct r as [|q r]; [apply Permutation_sym, Permutation_nil in P; discriminate|].
    inversion Sl as [|? ? Sl' Fl]; subst. inversion Sr as [|? ? Sr' Fr]; subst. rewrite Forall_forall in Fl, Fr.
    assert (p = q).
    { assert (I : In p (q :: r)) by (eapply Permutation_in; [exact P|left; auto]).
      assert (J : In q (p :: l)) by (eapply Permutation_in; [apply Permutation_sym; exact P|left; auto]).
      destruct I as [I|I]; auto. destruct J as [J|J]; auto.
      specialize (Fr (fst p) (in_map fst _ _ I)). specialize (Fl (fst q) (in_map fst _ _ J)). lra. }
    subst q. f_equal. apply IH; auto. eapply Permutation_cons_inv. exact P.
Qed.
Lemma sorted_nodup (l : list R) : StronglySorted Rlt l -> NoDup l.
Proof.
  induction 1 as [|a l S IH F]; constructor; auto. intros I. rewrite Forall_forall in F. specialize (F a I). lra.
Qed.

(** ** A spline function meeting the specification *)
Definition scipy_ref (l : list (R * R)) : R -> R := pick (isort l) (length l - 4) (length l - 4 + 2).
Lemma scipy_ref_ok : scipy_cubic scipy_ref.
Proof.
  intros l r L P S. unfold scipy_ref. rewrite (sorted_unique (isort l) r); auto.
  - apply pick_spline; auto. rewrite <- (Permutation_length P). lia.
  - eapply perm_trans; [apply Permutation_sym, isort_perm|exact P].
  - apply isort_sorted. eapply Permutation_NoDup; [apply Permutation_map, Permutation_sym; exact P|]. apply sorted_nodup. exact S.
Qed.

Section Lists.
  Variable spline : list (R * R) -> R -> R.
  Hypothesis sp : scipy_cubic spline.
  Lemma knot_in l p : In p l -> exists k, (k < length l)%nat /\ knot l k = fst p /\ level l k = snd p.
  Proof. intros I. destruct (In_nth l p (0, 0) I) as (k & Hk & E). exists k. unfold knot, level. rewrite E. auto. Qed.
  Lemma isort_spline l : (4 <= length l)%nat -> NoDup (map fst l) -> cubic_spline (isort l) (spline l).
  Proof. intros L N. apply sp; auto using isort_perm, isort_sorted. Qed.
  Lemma spline_point l p : (4 <= length l)%nat -> NoDup (map fst l) -> In p l -> spline l (fst p) = snd p.
  Proof.
    intros L N I. destruct (isort_spline l L N) as (P & _ & V & _).
    destruct (knot_in (isort l) p) as (k & Hk & Ek & El); [eapply Permutation_in; [apply isort_perm|exact I]|].
    rewrite <- Ek, <- El. apply V. exact Hk.
  Qed.
  Lemma knot_between l a b x : StronglySorted Rlt (map fst l) -> In a l -> In b l -> fst a <= x <= fst b ->
    (4 <= length l)%nat -> knot l 0 <= x <= knot l (length l - 1).
  Proof.
    intros S Ia Ib Hx L. assert (Len : length l = (length l - 4 + 4)%nat) by lia.
    destruct (knot_in l a Ia) as (k & Hk & Ea & _). destruct (knot_in l b Ib) as (k' & Hk' & Eb & _). rewrite <- Ea, <- Eb in Hx. split.
    - destruct (Nat.eq_dec k 0) as [->|]; [lra|]. pose proof (knot_mono l (length l - 4) Len S 0 k ltac:(lia)). lra.
    - destruct (Nat.eq_dec k' (length l - 1)) as [->|]; [lra|].
      pose proof (knot_mono l (length l - 4) Len S k' (length l - 1)%nat ltac:(lia)). lra.
  Qed.
  Lemma spline_exact l p a b x : (4 <= length l)%nat -> NoDup (map fst l) -> (forall q, In q l -> snd q = val p (fst q)) ->
    In a l -> In b l -> fst a <= x <= fst b -> spline l x = val p x.
  Proof.
    intros L N E Ia Ib Hx. pose proof (isort_spline l L N) as C. pose proof (isort_sorted l N) as S.
    assert (Len : length (isort l) = length l) by (symmetry; apply Permutation_length, isort_perm).
    apply (spline_cubic (isort l) (length l - 4) ltac:(lia) S (spline l) p C).
    - intros k Hk. unfold level, knot. apply E. eapply Permutation_in; [apply Permutation_sym, isort_perm|]. apply nth_In. lia.
    - replace (length l - 4 + 3)%nat with (length (isort l) - 1)%nat by lia.
      apply (knot_between (isort l) a b); auto; [eapply Permutation_in; [apply isort_perm|auto]..|lia].
  Qed.
  Lemma spline_det spline' l a b x : scipy_cubic spline' -> (4 <= length l)%nat -> NoDup (map fst l) ->
    In a l -> In b l -> fst a <= x <= fst b -> spline l x = spline' l x.
  Proof.
    intros sp' L N Ia Ib Hx. pose proof (isort_sorted l N) as S.
    assert (Len : length (isort l) = length l) by (symmetry; apply Permutation_length, isort_perm).
    apply (spline_unique (isort l) (length l - 4) ltac:(lia) S); [apply isort_spline; auto|apply sp'; auto using isort_perm|].
    replace (length l - 4 + 3)%nat with (length (isort l) - 1)%nat by lia.
    apply (knot_between (isort l) a b); auto; [eapply Permutation_in; [apply isort_perm|auto]..|lia].
  Qed.
End Lists.
