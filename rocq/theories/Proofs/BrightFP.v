(** Rounded sums of non-negative doubles. *)
From Coq Require Import ZArith Reals Bool List Permutation Lia Lra Psatz.
From Flocq Require Import Core BinarySingleNaN Plus_error Relative.
From Verif.Base Require Import Py Arr Sums F64 Lstsq.
From Verif.Spec Require Import BrightFSpec.
From Verif.Proofs Require Import F64P F64N ShapesFA.
Import ListNotations.
Local Open Scope R_scope.
Local Notation B := (bpow radix2).
Local Notation u := (B (-53)).
Local Notation eta := (B (-1075)).

(** ** Values that are not finite *)
Lemma fadd_nan_l x : fadd fnan x = fnan. Proof. destruct x; reflexivity. Qed.
Lemma fadd_nan_r x : fadd x fnan = fnan. Proof. destruct x; reflexivity. Qed.
Lemma fdiv_nan_l x : fdiv fnan x = fnan. Proof. destruct x; reflexivity. Qed.
Lemma fdiv_nan_r x : fdiv x fnan = fnan. Proof. destruct x; reflexivity. Qed.
Lemma fmul_nan_r x : fmul x fnan = fnan. Proof. destruct x; reflexivity. Qed.
Lemma nan_eq x : fisnan x = true -> x = fnan. Proof. intros H. destruct x; try discriminate H; reflexivity. Qed.
Lemma added_nan l s : added_up l s -> In fnan l -> s = fnan.
Proof.
  induction 1 as [|x|l m s t A IHA A' IHB|l m s Q A IH]; intros I.
  - destruct I.
  - destruct I as [->|[]]. reflexivity.
  - apply in_app_iff in I as [I|I]; [rewrite (IHA I); apply fadd_nan_l|rewrite (IHB I); apply fadd_nan_r].
  - apply IH. apply Permutation_in with m; auto using Permutation_sym.
Qed.
Lemma fadd_nonfin_l x y : is_finite x = false -> is_finite (fadd x y) = false.
Proof. destruct x as [|[]| |], y as [|[]| |]; cbn; intros; congruence || reflexivity. Qed.
Lemma fadd_nonfin_r x y : is_finite y = false -> is_finite (fadd x y) = false.
Proof. destruct x as [|[]| |], y as [|[]| |]; cbn; intros; congruence || reflexivity. Qed.
Lemma added_nonfin l s x : added_up l s -> In x l -> is_finite x = false -> is_finite s = false.
Proof.
  intros A. revert x. induction A as [|x|l m s t A IHA A' IHB|l m s Q A IH]; intros y I F.
  - destruct I.
  - destruct I as [->|[]]. exact F.
  - apply in_app_iff in I as [I|I]; [apply fadd_nonfin_l, (IHA y)|apply fadd_nonfin_r, (IHB y)]; auto.
  - apply (IH y); auto. apply Permutation_in with m; auto using Permutation_sym.
Qed.
Lemma fdiv_nonfin x y : is_finite x = false -> is_finite y = false -> fdiv x y = fnan.
Proof. destruct x as [|[]| |], y as [|[]| |]; cbn; intros; congruence || reflexivity. Qed.
Lemma added_one x s : added_up [x] s -> is_finite x = true -> fval x <> 0 -> s = x.
Proof.
  intros A F N.
  assert (G : forall l s, added_up l s -> (l = [] -> is_finite s = true /\ fval s = 0) /\ (l = [x] -> s = x)).
  { clear s A. induction 1 as [|y|l m s t A IHA A' IHB|l m s Q A IH].
    - split; [split; reflexivity|discriminate].
    - split; [discriminate|intros E; injection E; auto].
    - assert (Z1 : forall a b, is_finite a = true -> fval a = 0 -> is_finite b = true ->
        fval (fadd a b) = fval b /\ is_finite (fadd a b) = true).
      { intros a b Fa Va Fb. destruct (fadd_spec a b Fa Fb) as [V W].
        - rewrite Va, Rplus_0_l, rnd_id by apply fval_format. apply fval_bound.
        - rewrite Va, Rplus_0_l, rnd_id in V by apply fval_format. auto. }
      split; intros E.
      + apply app_eq_nil in E as [-> ->]. destruct IHA as [IHA _], IHB as [IHB _].
        destruct (IHA eq_refl) as [F1 V1], (IHB eq_refl) as [F2 V2]. destruct (Z1 s t F1 V1 F2) as [V W].
        split; [exact W|]. rewrite V. exact V2.
      + apply app_eq_unit in E as [[-> ->]|[-> ->]].
        * destruct IHA as [IHA _], IHB as [_ IHB]. destruct (IHA eq_refl) as [F1 V1]. rewrite (IHB eq_refl) in *.
          destruct (Z1 s x F1 V1 F) as [V W]. apply fin_eq; auto. rewrite V. exact N.
        * destruct IHA as [_ IHA], IHB as [IHB _]. destruct (IHB eq_refl) as [F1 V1]. rewrite (IHA eq_refl) in *.
          rewrite fadd_comm. destruct (Z1 t x F1 V1 F) as [V W]. apply fin_eq; auto. rewrite V. exact N.
    - split; intros ->.
      + apply IH. apply Permutation_nil. apply Permutation_sym. exact Q.
      + apply IH. apply Permutation_length_1_inv. apply Permutation_sym. exact Q. }
  apply (G _ _ A). reflexivity.
Qed.

(** ** Relative error *)
Lemma rnd_plus_rel x y : fmt64 x -> fmt64 y -> Rabs (rnd64 (x + y) - (x + y)) <= u * Rabs (x + y).
Proof.
  intros Fx Fy. destruct (Rle_or_lt (Rabs (x + y)) (B (-1021))) as [S|L].
  - rewrite rnd_id; [|apply (FLT_format_plus_small radix2 (-1074) 53); auto].
    rewrite Rminus_diag_eq, Rabs_R0 by reflexivity. apply Rmult_le_pos; [apply bpow_ge_0|apply Rabs_pos].
  - pose proof (relative_error_N_FLT radix2 (-1074) 53 ltac:(lia) (fun z => negb (Z.even z)) (x + y)) as E.
    replace (/ 2 * B (- (53) + 1)) with u in E.
    + apply E. apply Rlt_le. eapply Rle_lt_trans; [|exact L]. apply bpow_le. lia.
    + change (- (53) + 1)%Z with (-52)%Z. change (-52)%Z with (-53 + 1)%Z. rewrite bpow_plus. change (B 1) with 2. field.
Qed.
Definition klen {A} (l : list A) : R := INR (Nat.pred (List.length l)).
Lemma lsum_app {P} (f : P -> R) l m : lsum f (l ++ m) = lsum f l + lsum f m.
Proof. induction l as [|x l IH]; cbn; [ring|rewrite IH; ring]. Qed.
Lemma lsum_perm {P} (f : P -> R) l m : Permutation l m -> lsum f l = lsum f m.
Proof. induction 1; cbn; auto; try ring; congruence. Qed.
Lemma lsum_nonneg_in {P} (f : P -> R) l : (forall p, In p l -> 0 <= f p) -> 0 <= lsum f l.
Proof. induction l as [|x l IH]; cbn; intros H; [lra|]. assert (0 <= f x) by auto. assert (0 <= lsum f l) by auto. lra. Qed.
Lemma lsum_le_in {P} (f g : P -> R) l : (forall p, In p l -> f p <= g p) -> lsum f l <= lsum g l.
Proof. induction l as [|x l IH]; cbn; intros H; [lra|]. assert (f x <= g x) by auto. assert (lsum f l <= lsum g l) by auto. lra. Qed.
Lemma u_pos : 0 < u. Proof. apply bpow_gt_0. Qed.
Lemma small_k K : 0 <= K <= B 42 -> 0 <= K * u <= / 2048.
Proof.
  intros [H0 H1]. split; [apply Rmult_le_pos; [auto|apply bpow_ge_0]|].
  apply Rle_trans with (B 42 * u); [apply Rmult_le_compat_r; [apply bpow_ge_0|auto]|].
  rewrite <- bpow_plus. change (B (42 + -53)) with (/ 2048). lra.
Qed.
Lemma sum_rel l s : added_up l s -> (forall x, In x l -> is_finite x = true /\ 0 <= fval x) -> klen l <= B 42 -> lsum fval l < B 1010 ->
  is_finite s = true /\ 0 <= fval s /\ fval s * (1 - klen l * u) <= lsum fval l /\ lsum fval l * (1 - klen l * u) <= fval s.
Proof.
  assert (P1010 : B 1010 <= B 1011) by (apply bpow_le; lia).
  induction 1 as [|x|l m s t A IHA A' IHB|l m s Q A IH]; intros Fin Kl Bd.
  - unfold klen. cbn [List.length Nat.pred INR lsum]. change (fval fzero) with 0. split; [reflexivity|lra].
  - destruct (Fin x) as [F N]; [left; reflexivity|]. unfold klen. cbn [List.length Nat.pred INR lsum] in *. repeat split; auto; lra.
  - assert (Fl : forall x, In x l -> is_finite x = true /\ 0 <= fval x) by (intros; apply Fin, in_or_app; auto).
    assert (Fm : forall x, In x m -> is_finite x = true /\ 0 <= fval x) by (intros; apply Fin, in_or_app; auto).
    rewrite lsum_app in *.
    assert (Sl : 0 <= lsum fval l) by (apply lsum_nonneg_in; apply Fl). assert (Sm : 0 <= lsum fval m) by (apply lsum_nonneg_in; apply Fm).
    assert (Kll : klen l <= klen (l ++ m)) by (unfold klen; rewrite app_length; apply le_INR; lia).
    assert (Klm : klen m <= klen (l ++ m)) by (unfold klen; rewrite app_length; apply le_INR; lia).
    assert (K0 : forall X (q : list X), 0 <= klen q) by (intros; apply pos_INR).
    destruct (IHA Fl ltac:(lra) ltac:(lra)) as (F1 & N1 & U1 & L1). destruct (IHB Fm ltac:(lra) ltac:(lra)) as (F2 & N2 & U2 & L2).
    pose proof (small_k (klen l) ltac:(split; [apply K0|lra])) as Y1. pose proof (small_k (klen m) ltac:(split; [apply K0|lra])) as Y2.
    pose proof (small_k (klen (l ++ m)) ltac:(split; [apply K0|lra])) as Y. pose proof u_tiny as U.
    set (a := fval s) in *. set (b := fval t) in *.
    assert (Ba : a <= 2 * lsum fval l) by nra. assert (Bb : b <= 2 * lsum fval m) by nra.
    pose proof (rnd_plus_rel a b (fval_format s) (fval_format t)) as Er. rewrite (Rabs_right (a + b)) in Er by lra.
    destruct (fadd_spec s t F1 F2) as [V W].
    { fold a b. apply rnd_small with 1011%Z; [lia|]. rewrite Rabs_right by lra.
      replace (B 1011) with (2 * B 1010) by (change 1011%Z with (1010 + 1)%Z; rewrite bpow_plus; change (B 1) with 2; ring). lra. }
    fold a b in V. split; [exact W|]. rewrite V. split; [apply rnd_nonneg; lra|].
    apply Rabs_le_inv in Er. set (r := rnd64 (a + b)) in *.
    destruct l as [|x l]; [|destruct m as [|y m]].
    + cbn [lsum app] in *. assert (a = 0) by lra. assert (r = b) by (unfold r; rewrite H, Rplus_0_l; apply rnd_id; apply fval_format).
      rewrite H0. lra.
    + rewrite app_nil_r in *. cbn [lsum app] in *. assert (b = 0) by lra.
      assert (r = a) by (unfold r; rewrite H, Rplus_0_r; apply rnd_id; apply fval_format). rewrite H0. lra.
    + assert (KK : klen (x :: l) <= klen ((x :: l) ++ y :: m) - 1 /\ klen (y :: m) <= klen ((x :: l) ++ y :: m) - 1).
      { unfold klen. rewrite app_length. cbn [List.length Nat.pred Nat.add]. rewrite plus_INR, S_INR. pose proof (pos_INR (List.length l)). pose proof (pos_INR (List.length m)). lra. }
      set (K := klen ((x :: l) ++ y :: m)) in *. set (S1 := lsum fval (x :: l)) in *. set (S2 := lsum fval (y :: m)) in *.
      set (k1 := klen (x :: l)) in *. set (k2 := klen (y :: m)) in *.
      assert (W1 : k1 * u <= K * u - u) by nra. assert (W2 : k2 * u <= K * u - u) by nra.
      assert (G1 : a * (1 - (K * u - u)) <= S1) by nra. assert (G2 : b * (1 - (K * u - u)) <= S2) by nra.
      assert (H1 : S1 * (1 - (K * u - u)) <= a) by nra. assert (H2 : S2 * (1 - (K * u - u)) <= b) by nra.
      set (z := K * u) in *. split.
      * apply Rle_trans with ((a + b) * (1 + u) * (1 - z)); [apply Rmult_le_compat_r; lra|].
        apply Rle_trans with ((a + b) * (1 - (z - u))); [|lra]. rewrite Rmult_assoc. apply Rmult_le_compat_l; [lra|]. nra.
      * apply Rle_trans with ((a + b) * (1 - u)); [|lra].
        apply Rle_trans with ((S1 + S2) * (1 - (z - u)) * (1 - u)); [|apply Rmult_le_compat_r; lra].
        rewrite Rmult_assoc. apply Rmult_le_compat_l; [lra|]. nra.
  - assert (E : klen m = klen l) by (unfold klen; rewrite (Permutation_length Q); reflexivity).
    rewrite <- (lsum_perm fval _ _ Q), E in *. apply IH; auto. intros x I. apply Fin. apply Permutation_in with l; auto.
Qed.

(** ** A sum of weighted pixels *)
Lemma eta_tiny : 0 < eta <= u * / 1000000.
Proof.
  split; [apply bpow_gt_0|]. pose proof u_tiny. pose proof u_pos.
  apply Rle_trans with (B (-53 + -53)); [apply bpow_le; lia|]. rewrite bpow_plus. nra.
Qed.
Lemma mean_err {P} (pts : list P) (v : P -> f64) (c q : P -> R) (s : f64) (n D : R) :
  added_up (map v pts) s -> 1 <= n <= B 41 -> INR (List.length pts) <= n -> 0 <= D <= B 41 ->
  (forall p, In p pts -> 0 <= c p /\ 0 <= q p /\ is_finite (v p) = true /\ 0 <= fval (v p) /\
     fval (v p) * (1 - (n - 1) * u) <= c p * q p * ((1 + u) * (1 + u)) + 4 * eta * c p /\
     c p * q p * ((1 - u) * (1 - u)) * (1 - (n - 1) * u) - 4 * eta * c p <= fval (v p)) ->
  lsum (fun p => c p * q p) pts <= D -> lsum c pts <= D * n ->
  near s (lsum (fun p => c p * q p) pts) (D * n * B (-51)).
Proof.
  intros A Hn Hl HD Ht HS Hc.
  pose proof u_tiny as U. pose proof eta_tiny as Et. pose proof u_pos as Up.
  set (x := (n - 1) * u) in *.
  assert (X : 0 <= x <= / 2048) by (apply small_k; split; [lra|]; apply Rle_trans with (B 41); [lra|apply bpow_le; lia]).
  set (Sx := lsum (fun p => c p * q p) pts) in *. set (I := lsum c pts) in *.
  assert (I0 : 0 <= I) by (apply lsum_nonneg_in; intros; apply Ht; auto).
  assert (S0 : 0 <= Sx) by (apply lsum_nonneg_in; intros p Hp; destruct (Ht p Hp) as (? & ? & _); apply Rmult_le_pos; auto).
  assert (Ev : lsum fval (map v pts) = lsum (fun p => fval (v p)) pts) by (clear; induction pts; cbn; congruence).
  set (V := lsum (fun p => fval (v p)) pts) in *.
  assert (V0 : 0 <= V) by (apply lsum_nonneg_in; intros; apply Ht; auto).
  assert (Vu : V * (1 - x) <= Sx * ((1 + u) * (1 + u)) + 4 * eta * I).
  { clear - Ht. subst V Sx I. induction pts as [|p l IH]; cbn [lsum]; [lra|].
    assert (IH' := IH (fun p0 Hp => Ht p0 (or_intror Hp))). destruct (Ht p (or_introl eq_refl)) as (_ & _ & _ & _ & H & _). lra. }
  assert (Vl : Sx * ((1 - u) * (1 - u)) * (1 - x) - 4 * eta * I <= V).
  { clear - Ht. subst V Sx I. induction pts as [|p l IH]; cbn [lsum]; [lra|].
    assert (IH' := IH (fun p0 Hp => Ht p0 (or_intror Hp))). destruct (Ht p (or_introl eq_refl)) as (_ & _ & _ & _ & _ & H). lra. }
  assert (Kp : klen (map v pts) <= n - 1 \/ pts = []).
  { unfold klen. rewrite map_length. destruct pts as [|p l]; auto. left. cbn [List.length Nat.pred] in *. rewrite S_INR in Hl. lra. }
  assert (Eb : 4 * eta * I <= D * n * (4 * eta)) by nra.
  assert (E51 : B (-51) = 4 * u) by (change (-51)%Z with (-53 + 2)%Z; rewrite bpow_plus; change (B 2) with 4; ring).
  assert (B41 : B 41 <= B 1009 * / 4).
  { replace (/ 4) with (B (-2)) by reflexivity. rewrite <- bpow_plus. apply bpow_le. lia. }
  assert (Vb : V < B 1010).
  { assert (D * n * (4 * eta) <= 1).
    { assert (D * n <= B 41 * B 41) by (apply Rmult_le_compat; lra). rewrite <- bpow_plus in H.
      assert (B (41 + 41) * (4 * eta) <= 1).
      { change 4 with (B 2). rewrite <- !bpow_plus. change 1 with (B 0). apply bpow_le. lia. }
      pose proof (bpow_ge_0 radix2 (-1075)). nra. }
    assert (1 <= B 41) by (change 1 with (B 0); apply bpow_le; lia).
    assert (V * / 2 <= V * (1 - x)) by (apply Rmult_le_compat_l; lra).
    assert (Sx * ((1 + u) * (1 + u)) <= D * 2) by (apply Rmult_le_compat; [lra|nra|lra|nra]).
    assert (B 1010 = 2 * B 1009) by (change 1010%Z with (1009 + 1)%Z; rewrite bpow_plus; change (B 1) with 2; ring).
    assert (4 <= B 1009) by (change 4 with (B 2); apply bpow_le; lia). lra. }
  destruct (sum_rel _ s A) as (F & N & Su & Sl).
  - intros w Hw. apply in_map_iff in Hw as (p & <- & Hp). split; apply Ht; auto.
  - destruct Kp as [Kp| ->]; [|unfold klen; cbn [map List.length Nat.pred INR]; apply bpow_ge_0]. apply Rle_trans with (B 41); [lra|apply bpow_le; lia].
  - rewrite Ev. exact Vb.
  - rewrite Ev in *. split; [exact F|]. set (y := klen (map v pts) * u) in *.
    destruct Kp as [Kp| ->].
    2:{ assert (EV : V = 0) by reflexivity. assert (ES : Sx = 0) by reflexivity. assert (y = 0) by (unfold y, klen; cbn; ring).
        rewrite H, EV in Su. rewrite ES. assert (E0 : fval s = 0) by lra. rewrite E0, Rminus_0_r, Rabs_R0.
        apply Rmult_le_pos; [apply Rmult_le_pos; lra|apply bpow_ge_0]. }
    assert (Y : 0 <= y <= x) by (unfold y, x, klen in *; pose proof (pos_INR (Nat.pred (List.length (map v pts)))); nra).
    assert (Xn : x + u = n * u) by (unfold x; ring).
    assert (Dn : D * (x + u) = D * n * u) by (rewrite Xn; ring).
    rewrite E51. apply Rabs_le. set (a := fval s) in *. split.
    + assert (L1 : V * (1 - x) <= a) by (apply Rle_trans with (V * (1 - y)); [apply Rmult_le_compat_l; lra|exact Sl]).
      assert (L2 : (Sx * ((1 - u) * (1 - u)) * (1 - x) - 4 * eta * I) * (1 - x) <= a)
        by (apply Rle_trans with (V * (1 - x)); [apply Rmult_le_compat_r; lra|exact L1]).
      assert (L3 : (1 - 2 * (x + u)) <= ((1 - u) * (1 - u)) * (1 - x) * (1 - x)).
      { clear - X U. assert (1 - 2 * u <= (1 - u) * (1 - u)) by nra. assert (1 - 2 * x <= (1 - x) * (1 - x)) by nra.
        rewrite Rmult_assoc. apply Rle_trans with ((1 - 2 * u) * (1 - 2 * x)); [nra|]. apply Rmult_le_compat; lra. }
      assert (E0 : 0 <= 4 * eta * I) by (apply Rmult_le_pos; lra).
      assert (L4 : Sx * (1 - 2 * (x + u)) - 4 * eta * I <= a).
      { assert (Sx * (1 - 2 * (x + u)) <= Sx * (((1 - u) * (1 - u)) * (1 - x) * (1 - x))) by (apply Rmult_le_compat_l; auto).
        assert (4 * eta * I * (1 - x) <= 4 * eta * I * 1) by (apply Rmult_le_compat_l; lra). lra. }
      assert (L5 : Sx * (x + u) <= D * n * u) by (rewrite <- Dn; apply Rmult_le_compat_r; lra).
      assert (L6 : 4 * eta * I <= D * n * u) by (eapply Rle_trans; [exact Eb|]; apply Rmult_le_compat_l; [apply Rmult_le_pos|]; lra). lra.
    + assert (U1 : a * (1 - x) <= V) by (apply Rle_trans with (a * (1 - y)); [apply Rmult_le_compat_l; lra|exact Su]).
      assert (U2 : a * (1 - x) * (1 - x) <= Sx * ((1 + u) * (1 + u)) + 4 * eta * I)
        by (apply Rle_trans with (V * (1 - x)); [apply Rmult_le_compat_r; lra|exact Vu]).
      assert (U3 : a * (1 - 2 * x) <= Sx * ((1 + u) * (1 + u)) + 4 * eta * I).
      { apply Rle_trans with (a * (1 - x) * (1 - x)); [|exact U2]. rewrite Rmult_assoc. apply Rmult_le_compat_l; [lra|]. clear - X. nra. }
      assert (L5 : Sx * (x + u) <= D * n * u) by (rewrite <- Dn; apply Rmult_le_compat_r; lra).
      assert (L6 : 4 * eta * I <= D * n * u * / 100)
        by (eapply Rle_trans; [exact Eb|]; rewrite (Rmult_assoc (D * n)); apply Rmult_le_compat_l; [apply Rmult_le_pos|]; lra).
      assert (U4 : (a - Sx) * (1 - 2 * x) <= 2 * (Sx * (x + u)) + Sx * u * u + 4 * eta * I) by lra.
      set (w := D * n * u) in *. assert (W0 : 0 <= w) by (unfold w; apply Rmult_le_pos; [apply Rmult_le_pos|]; lra).
      assert (L7 : Sx * u * u <= w * / 100).
      { apply Rmult_le_compat; try lra; [apply Rmult_le_pos; lra|]. apply Rle_trans with (Sx * (x + u)); [apply Rmult_le_compat_l; lra|exact L5]. }
      replace (D * n * (4 * u)) with (4 * w) by (unfold w; ring).
      destruct (Rle_or_lt (a - Sx) 0) as [|Pos]; [lra|].
      assert ((a - Sx) * (1 - 2 * / 2048) <= (a - Sx) * (1 - 2 * x)) by (apply Rmult_le_compat_l; lra). lra.
Qed.
