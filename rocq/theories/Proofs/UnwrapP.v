(** Phase unwrapping. *)
From Coq Require Import ZArith Bool List Reals Lra Lia String ClassicalEpsilon.
From Verif.Base Require Import Py Arr.
From Verif.Model Require Import Fits Unwrap.
From Verif.Spec Require Import UnwrapSpec.
From Verif.Proofs Require Import FitsP DarkHoleP.
Import ListNotations.
Open Scope Z_scope.

Lemma congruent_sym x y : congruent x y -> congruent y x.
Proof. intros [k ->]. exists (- k). rewrite opp_IZR. ring. Qed.
Lemma congruent_trans x y z : congruent x y -> congruent y z -> congruent x z.
Proof. intros [k ->] [l ->]. exists (k + l). rewrite plus_IZR. ring. Qed.
Lemma congruent_refl x : congruent x x.
Proof. exists 0. cbn. ring. Qed.

Lemma joined_on m p q : joined m p q -> on m p /\ on m q.
Proof. induction 1; tauto. Qed.
(** Two gentle fields that agree modulo 2 pi differ by the same number of turns on a connected region. *)
Lemma same_turns m u v : gentle m u -> gentle m v ->
  (forall i j, on m (i, j) -> congruent (u i j) (v i j)) ->
  forall p q k, joined m p q -> v (fst p) (snd p) = (u (fst p) (snd p) + 2 * PI * IZR k)%R ->
  v (fst q) (snd q) = (u (fst q) (snd q) + 2 * PI * IZR k)%R.
Proof.
  intros Gu Gv Cg p q k J E. induction J as [|p q r J IH A O]; auto. specialize (IH E).
  destruct (joined_on _ _ _ J) as [_ Oq]. destruct r as [i j]. destruct (Cg i j O) as [l El]. cbn [fst snd].
  specialize (Gu q (i, j) Oq O A). specialize (Gv q (i, j) Oq O A). cbn [fst snd] in Gu, Gv.
  rewrite IH, El in Gv. set (a := u (fst q) (snd q)) in *. set (b := u i j) in *.
  assert (k = l) as ->; [|auto].
  assert (Rabs (2 * PI * IZR (k - l)) < 2 * PI)%R as B.
  { replace (2 * PI * IZR (k - l))%R with ((a + 2 * PI * IZR k - (b + 2 * PI * IZR l)) - (a - b))%R by (rewrite minus_IZR; ring).
    eapply Rle_lt_trans; [apply Rabs_triang|]. rewrite Rabs_Ropp. lra. }
  pose proof PI_RGT_0. rewrite Rabs_mult, (Rabs_pos_eq (2 * PI)) in B by lra.
  assert (Rabs (IZR (k - l)) < 1)%R as B' by nra. rewrite <- abs_IZR in B'. apply lt_IZR in B'. lia.
Qed.

(** ** unwrap *)
Lemma check_ok phase amplitude nbin min_size bMask : check_inputs phase amplitude nbin min_size bMask = Ok tt <->
  same_shape phase amplitude = true /\ (forall i j, in_arr amplitude i j -> (0 <= at2 amplitude i j)%R) /\
  3 <= nbin /\ 0 < min_size /\ (forall m, bMask = Some m -> same_shape m phase = true).
Proof.
  assert (N : negb (existsb (fun v => Rltb v 0) (elements amplitude)) = true <->
    forall i j, in_arr amplitude i j -> (0 <= at2 amplitude i j)%R).
  { rewrite negb_true_iff. split.
    - intros H i j I. apply Rnot_lt_le. intro L.
      assert (existsb (fun v => Rltb v 0) (elements amplitude) = true); [|congruence].
      apply existsb_exists. exists (at2 amplitude i j). split; [apply in_elements; eauto|apply Rltb_iff; auto].
    - intros H. apply not_true_is_false. intro E. apply existsb_exists in E as (v & I & L). apply in_elements in I as (i & j & I & ->).
      apply Rltb_iff in L. specialize (H i j I). lra. }
  unfold check_inputs. split.
  - intros E. apply guard_ok in E as [G1 E]. apply guard_ok in E as [G2 E]. apply guard_ok in E as [G3 E].
    apply guard_ok in E as [G4 E]. apply guard_ok in E as [G5 E]. split; auto. split; [apply N; auto|].
    apply negb_true_iff, Z.ltb_ge in G4. apply Z.ltb_lt in G5. split; [lia|]. split; auto.
    intros m ->. unfold guard in E. destruct (same_shape m phase); congruence.
  - intros (S & P & H1 & H2 & M). rewrite S, (proj2 N) by auto. rewrite (proj2 (Z.ltb_lt 0 nbin)), (proj2 (Z.ltb_ge nbin 3)), (proj2 (Z.ltb_lt 0 min_size)) by lia.
    cbn [guard bind negb]. destruct bMask as [m|]; auto. rewrite (M m) by auto. auto.
Qed.
Lemma check_err phase amplitude nbin min_size bMask e : check_inputs phase amplitude nbin min_size bMask = Err e ->
  (e = TypeError /\ (same_shape phase amplitude = false \/ (exists i j, in_arr amplitude i j /\ (at2 amplitude i j < 0)%R) \/
     nbin <= 0 \/ min_size <= 0 \/ exists m, bMask = Some m /\ same_shape m phase = false)) \/
  (e = ValueError /\ 0 < nbin < 3).
Proof.
  unfold check_inputs. intros E.
  apply guard_err in E as [[G ->]|[G01 E]]; [auto 9|].
  apply guard_err in E as [[G ->]|[G0 E]].
  { left. split; auto. right. left. apply negb_false_iff, existsb_exists in G as (v & I & L). apply in_elements in I as (i & j & I & ->).
    apply Rltb_iff in L. eauto. }
  apply guard_err in E as [[G ->]|[G3 E]]; [apply Z.ltb_ge in G; auto 9|].
  apply guard_err in E as [[G ->]|[G4 E]]; [apply negb_false_iff, Z.ltb_lt in G; apply Z.ltb_lt in G3; auto 9|].
  apply guard_err in E as [[G ->]|[G5 E]]; [apply Z.ltb_ge in G; auto 9|].
  destruct bMask as [m|]; [|discriminate]. unfold guard in E. destruct (same_shape m phase) eqn:S; [discriminate|]. injection E as <-. eauto 10.
Qed.
Lemma amap_negb (m : arr bool) p : on (amap negb (amap negb m)) p <-> on m p.
Proof. unfold on. cbn. rewrite negb_involutive. reflexivity. Qed.
Lemma joined_ext m m' p q : (forall r, on m r <-> on m' r) -> joined m p q -> joined m' p q.
Proof. intros H J. induction J; [constructor; apply H; auto|econstructor; eauto; apply H; auto]. Qed.
Section Unwrap.
Variables (up : unwrap_fun) (small : small_fun).
Hypothesis (U : is_unwrapper up) (Sm : is_remove_small small).

Lemma choose_ok phase amplitude nbin min_size use_mask bMask m : same_shape phase amplitude = true ->
  (forall m, bMask = Some m -> same_shape m phase = true) ->
  choose_mask small phase amplitude nbin min_size use_mask bMask = Ok m ->
  same_shape m phase = true /\ mask_used phase amplitude nbin min_size use_mask bMask m.
Proof.
  intros S B E. unfold choose_mask in E. destruct bMask as [m0|].
  - injection E as <-. split; auto. cbn. auto.
  - apply same_shape_iff in S as [S1 S2]. unfold mask_used. destruct use_mask.
    + apply bind_ok in E as (t & Et & E). injection E as <-. destruct (Sm t min_size) as (M1 & M2 & M3).
      pose proof (ampthresh_ok _ _ _ Et) as (lo & hi & H & k & _ & _ & _ & _ & _ & _ & _ & R & C & _).
      split; [apply same_shape_iff; lia|]. split; [lia|]. split; [lia|]. exists t. split; auto. intros i j [Hi Hj]. apply M3. split; lia.
    + injection E as <-. split; [apply same_shape_iff; cbn; auto|]. cbn. auto.
Qed.
Lemma unwrap_ok phase amplitude nbin fill min_size use_mask bMask p m :
  unwrap up small phase amplitude nbin fill min_size use_mask bMask = Ok (p, m) ->
  same_shape p phase = true /\ same_shape m phase = true /\ mask_used phase amplitude nbin min_size use_mask bMask m /\
  (forall i j, in_arr phase i j -> at2 m i j = false -> at2 p i j = fill) /\
  (forall i j, in_arr phase i j -> at2 m i j = true -> congruent (at2 phase i j) (at2 p i j)).
Proof.
  unfold unwrap. intros E. apply bind_ok in E as ([] & Ec & E). apply check_ok in Ec as (S & _ & _ & _ & B).
  apply bind_ok in E as (m' & Em & E). injection E as <- <-. destruct (choose_ok _ _ _ _ _ _ _ S B Em) as [Sh M].
  apply same_shape_iff in Sh as [H1 H2]. destruct (U phase (amap negb m')) as (U1 & U2 & U3 & _); [apply same_shape_iff; cbn; auto|].
  split; [apply same_shape_iff; cbn; auto|]. split; [apply same_shape_iff; auto|]. split; auto. cbn [at2].
  split; intros i j [Hi Hj] V; rewrite V; auto. apply U3. apply amap_negb. split; cbn; [split; lia|auto].
Qed.
Lemma unwrap_exact phase amplitude nbin fill min_size use_mask bMask p m psi :
  unwrap up small phase amplitude nbin fill min_size use_mask bMask = Ok (p, m) ->
  gentle m psi -> wrapped_of m psi phase ->
  forall a, on m a -> exists k, forall b, joined m a b -> at2 p (fst b) (snd b) = (psi (fst b) (snd b) + 2 * PI * IZR k)%R.
Proof.
  intros E G W. pose proof (unwrap_ok _ _ _ _ _ _ _ _ _ E) as (Sp & Sh & _ & _ & Cg).
  unfold unwrap in E. apply bind_ok in E as ([] & Ec & E).
  apply bind_ok in E as (m' & Em & E). injection E as <- <-.
  apply same_shape_iff in Sh as [H1 H2]. destruct (U phase (amap negb m')) as (U1 & U2 & _ & U4); [apply same_shape_iff; cbn; auto|].
  set (mm := amap negb (amap negb m')) in *.
  assert (Gm : gentle mm (at2 (up phase (amap negb m')))).
  { refine (U4 psi _ _).
    - intros x y Hx Hy A. apply (proj1 (amap_negb m' _)) in Hx. apply (proj1 (amap_negb m' _)) in Hy. auto.
    - intros i j Hi. apply (proj1 (amap_negb m' _)) in Hi. apply W. auto. }
  assert (Gm' : gentle m' (at2 (up phase (amap negb m')))).
  { intros x y Hx Hy. apply Gm; apply amap_negb; auto. }
  assert (Cg' : forall i j, on m' (i, j) -> congruent (psi i j) (at2 (up phase (amap negb m')) i j)).
  { intros i j O. destruct (W i j O) as [W1 _]. eapply congruent_trans; [exact W1|]. destruct O as [[I1 I2] O]. cbn [fst snd] in I1, I2, O.
    specialize (Cg i j ltac:(split; lia) O). cbn [at2] in Cg. rewrite O in Cg. auto. }
  intros a Oa. destruct (Cg' (fst a) (snd a)) as [k Ek]; [destruct a; auto|]. exists k. intros b J.
  destruct (joined_on _ _ _ J) as [_ [_ Ob]]. cbn [at2]. rewrite Ob.
  apply (same_turns m' psi (at2 (up phase (amap negb m'))) G Gm' Cg' a b k J Ek).
Qed.
Lemma unwrap_accepts phase amplitude nbin fill min_size use_mask bMask :
  (exists r, unwrap up small phase amplitude nbin fill min_size use_mask bMask = Ok r) <->
  same_shape phase amplitude = true /\ (forall i j, in_arr amplitude i j -> (0 <= at2 amplitude i j)%R) /\
  3 <= nbin /\ 0 < min_size /\ (forall m, bMask = Some m -> same_shape m phase = true) /\
  (bMask = None -> use_mask = true -> exists t, ampthresh amplitude nbin = Ok t).
Proof.
  unfold unwrap. split.
  - intros [r E]. apply bind_ok in E as ([] & Ec & E). apply check_ok in Ec as (H1 & H2 & H3 & H4 & H5).
    repeat (split; auto). intros -> ->. unfold choose_mask in E. apply bind_ok in E as (m & E & _). apply bind_ok in E as (t & E & _). eauto.
  - intros (H1 & H2 & H3 & H4 & H5 & H6). rewrite (proj2 (check_ok phase amplitude nbin min_size bMask)) by auto. cbn [bind].
    unfold choose_mask. destruct bMask as [m|]; [cbn; eauto|]. destruct use_mask; [|cbn; eauto].
    destruct (H6 eq_refl eq_refl) as [t ->]. cbn. eauto.
Qed.
Lemma unwrap_rejects phase amplitude nbin fill min_size use_mask bMask e :
  unwrap up small phase amplitude nbin fill min_size use_mask bMask = Err e ->
  (e = TypeError /\ (same_shape phase amplitude = false \/ (exists i j, in_arr amplitude i j /\ (at2 amplitude i j < 0)%R) \/
     nbin <= 0 \/ min_size <= 0 \/ exists m, bMask = Some m /\ same_shape m phase = false)) \/
  (e = ValueError /\ (0 < nbin < 3 \/ (bMask = None /\ use_mask = true /\ ampthresh amplitude nbin = Err ValueError))).
Proof.
  unfold unwrap. intros E. destruct (check_inputs phase amplitude nbin min_size bMask) as [[]|e'] eqn:Ec; cbn [bind] in E.
  - right. unfold choose_mask in E. destruct bMask as [m|]; [discriminate|]. destruct use_mask; [|discriminate].
    destruct (ampthresh_total amplitude nbin) as [[t Et]|Et]; rewrite Et in *; cbn [bind] in E; [discriminate|]. injection E as <-. auto 6.
  - injection E as <-. apply check_err in Ec as [H|[H1 H2]]; auto.
Qed.

(** ** Erosion *)
Lemma erosion_ok m s e : binary_erosion m s = Ok e -> eroded m s e.
Proof.
  unfold binary_erosion. intros E. apply guard_ok in E as [G0 E]. injection E as <-. split; [auto|]. split; [auto|]. intros i j I. cbn [at2].
  rewrite forallb_forall. split.
  - intros H k l [[K L] O]. cbn [fst snd] in *. specialize (H (k, l)). cbn [fst snd] in H. rewrite in_indices in H. specialize (H (conj K L)).
    rewrite O in H. cbn in H. apply andb_true_iff in H as [H1 H2]. apply in_arrb_spec in H1. split; auto.
  - intros H [k l] I'. apply in_indices in I' as [K L]. cbn [fst snd] in *. destruct (at2 s k l) eqn:O; auto. cbn [negb orb].
    destruct (H k l) as [H1 H2]; [split; [split|]; auto|]. cbn [fst snd] in *. apply andb_true_iff. split; auto. apply in_arrb_spec. auto.
Qed.
Lemma erosion_total m s : 0 < nr s -> 0 < nc s -> exists e, binary_erosion m s = Ok e.
Proof. intros H1 H2. unfold binary_erosion. rewrite (proj2 (Z.ltb_lt _ _) H1), (proj2 (Z.ltb_lt _ _) H2). cbn. eauto. Qed.
Lemma erosion_empty m s : nr s <= 0 \/ nc s <= 0 -> binary_erosion m s = Err (Custom "RuntimeError").
Proof.
  intros H. unfold binary_erosion. replace ((0 <? nr s) && (0 <? nc s)) with false; auto. symmetry. apply andb_false_iff.
  destruct H; [left|right]; apply Z.ltb_ge; auto.
Qed.
Lemma eroded_subset m s e : eroded m s e -> on s (nr s / 2, nc s / 2) -> forall p, on e p -> on m p.
Proof.
  intros (E1 & E2 & E) O [i j] [I V]. cbn [fst snd] in *. destruct I as [I1 I2].
  rewrite E in V by (split; cbn; lia). specialize (V _ _ O). replace (i + nr s / 2 - nr s / 2) with i in V by lia.
  replace (j + nc s / 2 - nc s / 2) with j in V by lia. auto.
Qed.
(** The default structure: all pixels at most two edges away. *)
Lemma diamond k l : on selem_default (k, l) <-> Z.abs (k - 2) + Z.abs (l - 2) <= 2.
Proof.
  assert (R : nr selem_default = 5 /\ nc selem_default = 5) by (split; reflexivity). destruct R as [R1 R2]. split.
  - intros [[K L] V]. cbn [fst snd] in *. rewrite R1 in K. rewrite R2 in L.
    assert (k = 0 \/ k = 1 \/ k = 2 \/ k = 3 \/ k = 4) as Hk by lia. assert (l = 0 \/ l = 1 \/ l = 2 \/ l = 3 \/ l = 4) as Hl by lia.
    destruct Hk as [-> | [-> | [-> | [-> | ->]]]]; destruct Hl as [-> | [-> | [-> | [-> | ->]]]]; cbn in V |- *; try discriminate; lia.
  - intros H. assert (0 <= k < 5 /\ 0 <= l < 5) as [K L] by lia. split; [split; cbn [fst snd]; lia|]. cbn [fst snd].
    assert (k = 0 \/ k = 1 \/ k = 2 \/ k = 3 \/ k = 4) as Hk by lia. assert (l = 0 \/ l = 1 \/ l = 2 \/ l = 3 \/ l = 4) as Hl by lia.
    destruct Hk as [-> | [-> | [-> | [-> | ->]]]]; destruct Hl as [-> | [-> | [-> | [-> | ->]]]]; cbn in H |- *; auto; lia.
Qed.
Lemma erosion_default m e : binary_erosion m selem_default = Ok e -> nr e = nr m /\ nc e = nc m /\
  forall i j, in_arr m i j -> (at2 e i j = true <-> forall a b, Z.abs (a - i) + Z.abs (b - j) <= 2 -> on m (a, b)).
Proof.
  intros E. apply erosion_ok in E as (E1 & E2 & E). split; auto. split; auto. intros i j I. rewrite E by auto. change (nr selem_default / 2) with 2.
  change (nc selem_default / 2) with 2. split.
  - intros H a b D. specialize (H (a - i + 2) (b - j + 2)). rewrite diamond in H. specialize (H ltac:(lia)).
    replace (i + (a - i + 2) - 2) with a in H by lia. replace (j + (b - j + 2) - 2) with b in H by lia. auto.
  - intros H k l O. apply diamond in O. apply H. lia.
Qed.

(** ** unwrap_segments *)
Variable (nearest : nearest_fun).
Hypothesis (Nr : is_nearest nearest).

(** The mask in use after erosion. *)
Lemma segments_parts phase amplitude nbin fill min_size use_mask bMask selem p e :
  unwrap_segments up small nearest phase amplitude nbin fill min_size use_mask bMask selem = Ok (p, e) ->
  exists m q full, same_shape m phase = true /\ mask_used phase amplitude nbin min_size use_mask bMask m /\
    (match selem with Some s => eroded m s e | None => e = m end) /\ (exists a, on e a) /\ same_shape e phase = true /\
    unwrap up small (Arr (nr phase) (nc phase) (fun i j => if at2 e i j then at2 phase i j else nearest e phase i j))
      amplitude 21 0 64 false None = Ok (q, full) /\
    p = Arr (nr q) (nc q) (fun i j => if at2 e i j then at2 q i j else fill).
Proof.
  unfold unwrap_segments. intros E. apply bind_ok in E as ([] & Ec & E). apply check_ok in Ec as (S & _ & _ & _ & B).
  apply bind_ok in E as (m & Em & E). destruct (choose_ok _ _ _ _ _ _ _ S B Em) as [Sh M].
  apply bind_ok in E as (e' & Ee & E). apply guard_ok in E as [G E]. apply bind_ok in E as ([q full] & Eq & E). injection E as <- <-.
  exists m, q, full. split; auto. split; auto. split; [destruct selem; [apply erosion_ok; auto|congruence]|]. split.
  - apply existsb_exists in G as (b & I & ->). apply in_elements in I as (i & j & I & V). exists (i, j). split; auto.
  - split; [|auto]. apply same_shape_iff in Sh as [H1 H2]. apply same_shape_iff. destruct selem as [s|].
    + apply erosion_ok in Ee as (E1 & E2 & _). lia.
    + injection Ee as <-. auto.
Qed.
Lemma segments_ok phase amplitude nbin fill min_size use_mask bMask selem p e :
  unwrap_segments up small nearest phase amplitude nbin fill min_size use_mask bMask selem = Ok (p, e) ->
  same_shape p phase = true /\ same_shape e phase = true /\
  (exists m, mask_used phase amplitude nbin min_size use_mask bMask m /\ same_shape m phase = true /\
     match selem with Some s => eroded m s e | None => e = m end) /\
  (exists a, on e a) /\
  (forall i j, in_arr phase i j -> at2 e i j = false -> at2 p i j = fill) /\
  (forall i j, in_arr phase i j -> at2 e i j = true -> congruent (at2 phase i j) (at2 p i j)).
Proof.
  intros E. apply segments_parts in E as (m & q & full & Sh & M & Er & Ne & Se & Eq & ->).
  apply unwrap_ok in Eq as (S1 & S2 & Mf & _ & Cg). apply same_shape_iff in S1 as [Q1 Q2]. cbn [nr nc] in Q1, Q2.
  split; [apply same_shape_iff; auto|]. split; auto. split; [eauto|]. split; auto. cbn [at2].
  split; intros i j I V; rewrite V; auto. specialize (Cg i j I). cbn [at2] in Cg. rewrite V in Cg. apply Cg.
  cbn in Mf. destruct Mf as (_ & _ & Mf). apply Mf. auto.
Qed.
Lemma whole_joined m : (forall i j, in_arr m i j -> at2 m i j = true) ->
  forall i j i' j', in_arr m i j -> in_arr m i' j' -> joined m (i, j) (i', j').
Proof.
  intros F i j i' j' [Hi Hj] [Hi' Hj'].
  assert (Row : forall n k, 0 <= n -> 0 <= k < nc m -> (0 <= i + n < nr m -> joined m (i, j) (i, k) -> joined m (i, j) (i + n, k)) /\
     (0 <= i - n < nr m -> joined m (i, j) (i, k) -> joined m (i, j) (i - n, k))).
  { intros n k Hn Hk. revert n Hn. apply (natlike_ind (fun n => (0 <= i + n < nr m -> joined m (i, j) (i, k) -> joined m (i, j) (i + n, k)) /\
     (0 <= i - n < nr m -> joined m (i, j) (i, k) -> joined m (i, j) (i - n, k)))).
    - replace (i + 0) with i by lia. replace (i - 0) with i by lia. auto.
    - intros n Hn [A B]. split; intros R J.
      + apply joined_step with (i + n, k); [apply A; auto; lia|unfold adjacent; cbn; lia|]. split; cbn; [split; lia|apply F; split; lia].
      + apply joined_step with (i - n, k); [apply B; auto; lia|unfold adjacent; cbn; lia|]. split; cbn; [split; lia|apply F; split; lia]. }
  assert (Col : forall n, 0 <= n -> (0 <= j + n < nc m -> joined m (i, j) (i, j + n)) /\ (0 <= j - n < nc m -> joined m (i, j) (i, j - n))).
  { apply natlike_ind.
    - replace (j + 0) with j by lia. replace (j - 0) with j by lia.
      assert (joined m (i, j) (i, j)) by (constructor; split; cbn; [split; lia|apply F; split; lia]). auto.
    - intros n Hn [A B]. split; intros R.
      + apply joined_step with (i, j + n); [apply A; lia|unfold adjacent; cbn; lia|]. split; cbn; [split; lia|apply F; split; lia].
      + apply joined_step with (i, j - n); [apply B; lia|unfold adjacent; cbn; lia|]. split; cbn; [split; lia|apply F; split; lia]. }
  assert (J : joined m (i, j) (i, j')).
  { destruct (Z.le_gt_cases j j').
    - replace j' with (j + (j' - j)) by lia. apply Col; lia.
    - replace j' with (j - (j - j')) by lia. apply Col; lia. }
  destruct (Z.le_gt_cases i i').
  - replace i' with (i + (i' - i)) by lia. apply Row; auto; lia.
  - replace i' with (i - (i - i')) by lia. apply Row; auto; lia.
Qed.
Lemma nearest_self m i j p : on m (i, j) -> nearest_to m i j p -> p = (i, j).
Proof.
  intros O [_ H]. specialize (H _ O). unfold dist2 in H. cbn [fst snd] in H. destruct p as [a b]. cbn [fst snd] in H.
  pose proof (Z.square_nonneg (i - a)). pose proof (Z.square_nonneg (j - b)).
  assert (i - a = 0) by nia. assert (j - b = 0) by nia. f_equal; lia.
Qed.
Lemma nearest_here m i j : on m (i, j) -> nearest_to m i j (i, j).
Proof.
  intros O. split; auto. intros q _. unfold dist2. cbn [fst snd]. replace (i - i) with 0 by lia. replace (j - j) with 0 by lia.
  pose proof (Z.square_nonneg (i - fst q)). pose proof (Z.square_nonneg (j - snd q)). nia.
Qed.
(** All regions of the eroded mask come out with one and the same number of turns. *)
Lemma segments_exact phase amplitude nbin fill min_size use_mask bMask selem p e psi :
  unwrap_segments up small nearest phase amplitude nbin fill min_size use_mask bMask selem = Ok (p, e) ->
  gentle_filled e psi -> wrapped_of e psi phase ->
  exists k, forall i j, on e (i, j) -> at2 p i j = (psi i j + 2 * PI * IZR k)%R.
Proof.
  intros E G W. apply segments_parts in E as (m & q & full & Sh & M & Er & Ne & Se & Eq & ->).
  pose proof Se as Se'. apply same_shape_iff in Se' as [E1 E2].
  assert (Ch : forall i j, in_arr phase i j -> exists b, nearest_to e i j b /\
    (if at2 e i j then at2 phase i j else nearest e phase i j) = at2 phase (fst b) (snd b)).
  { intros i j I. destruct (at2 e i j) eqn:V.
    - exists (i, j). split; auto. apply nearest_here. split; auto. destruct I. split; cbn; lia.
    - apply (Nr e phase i j Se Ne I). }
  set (pick := fun i j => match excluded_middle_informative (exists b, nearest_to e i j b /\
    (if at2 e i j then at2 phase i j else nearest e phase i j) = at2 phase (fst b) (snd b)) with
    | left H => proj1_sig (constructive_indefinite_description _ H) | right _ => (0, 0) end).
  assert (Pk : forall i j, in_arr phase i j -> nearest_to e i j (pick i j) /\
    (if at2 e i j then at2 phase i j else nearest e phase i j) = at2 phase (fst (pick i j)) (snd (pick i j))).
  { intros i j I. unfold pick. destruct excluded_middle_informative as [H|H]; [|destruct H; auto].
    destruct (constructive_indefinite_description _ H) as [b B]. auto. }
  set (psi' := fun i j => psi (fst (pick i j)) (snd (pick i j))).
  pose proof Eq as Eq'. apply unwrap_ok in Eq' as (_ & Sf & Mf & _ & _). apply same_shape_iff in Sf as [F1 F2]. cbn [nr nc] in F1, F2.
  cbn in Mf. destruct Mf as (_ & _ & Mf). unfold in_arr in Mf. cbn [nr nc] in Mf.
  destruct Ne as [[a1 a2] Ha]. assert (Ia : in_arr phase a1 a2) by (destruct Ha as [[I1 I2] _]; cbn in I1, I2; split; lia).
  destruct (unwrap_exact _ _ _ _ _ _ _ _ _ psi' Eq) with (a := (a1, a2)) as [k K].
  - intros [x1 x2] [y1 y2] [X _] [Y _] A. cbn [fst snd] in *. unfold psi'. destruct X, Y.
    apply (G (x1, x2) (y1, y2)); cbn [fst snd]; auto; try (split; lia); apply Pk; split; lia.
  - intros i j [[I1 I2] _]. cbn [fst snd at2] in *. destruct (Pk i j) as [P1 P2]; [split; lia|]. rewrite P2. unfold psi'.
    destruct (pick i j) as [b1 b2]. apply W. apply P1.
  - destruct Ia. split; cbn [fst snd]; [split; lia|apply Mf; auto].
  - exists k. intros i j O. cbn [at2]. destruct (O) as [[I1 I2] V]. cbn [fst snd] in *. rewrite V.
    specialize (K (i, j)). cbn [fst snd] in K. rewrite K.
    + unfold psi'. destruct (Pk i j) as [P1 _]; [split; lia|]. apply nearest_self in P1; auto. rewrite P1. auto.
    + apply whole_joined; [|destruct Ia; split; lia|split; lia]. intros x y [X Y]. apply Mf. lia.
Qed.
Lemma segments_rejects phase amplitude nbin fill min_size use_mask bMask selem e :
  unwrap_segments up small nearest phase amplitude nbin fill min_size use_mask bMask selem = Err e ->
  (e = TypeError /\ (same_shape phase amplitude = false \/ (exists i j, in_arr amplitude i j /\ (at2 amplitude i j < 0)%R) \/
     nbin <= 0 \/ min_size <= 0 \/ exists m, bMask = Some m /\ same_shape m phase = false)) \/
  (e = ValueError /\ (0 < nbin < 3 \/ (bMask = None /\ use_mask = true /\ ampthresh amplitude nbin = Err ValueError) \/
     exists m d, mask_used phase amplitude nbin min_size use_mask bMask m /\ same_shape m phase = true /\
       match selem with Some s => eroded m s d | None => d = m end /\ forall i j, in_arr d i j -> at2 d i j = false)) \/
  (e = Custom "RuntimeError" /\ exists s, selem = Some s /\ (nr s <= 0 \/ nc s <= 0)).
Proof.
  unfold unwrap_segments. intros E. destruct (check_inputs phase amplitude nbin min_size bMask) as [[]|e'] eqn:Ec; cbn [bind] in E.
  2:{ injection E as <-. apply check_err in Ec as [H|[H1 H2]]; auto. }
  apply check_ok in Ec as (S & P & H1 & H2 & B).
  destruct (choose_mask small phase amplitude nbin min_size use_mask bMask) as [m|e'] eqn:Em; cbn [bind] in E.
  2:{ injection E as <-. right. left. unfold choose_mask in Em. destruct bMask; [discriminate|]. destruct use_mask; [|discriminate].
      destruct (ampthresh_total amplitude nbin) as [[t Et]|Et]; rewrite Et in *; cbn [bind] in Em; [discriminate|]. injection Em as <-. auto 6. }
  destruct (choose_ok _ _ _ _ _ _ _ S B Em) as [Sh M].
  destruct (match selem with Some s => binary_erosion m s | None => Ok m end) as [d|e'] eqn:Ed; cbn [bind] in E.
  2:{ injection E as <-. right. right. destruct selem as [s|]; [|discriminate]. destruct (Z.le_gt_cases (nr s) 0) as [L|L].
      - rewrite erosion_empty in Ed by auto. injection Ed as <-. eauto.
      - destruct (Z.le_gt_cases (nc s) 0) as [L'|L'].
        + rewrite erosion_empty in Ed by auto. injection Ed as <-. eauto.
        + destruct (erosion_total m s L L') as [x Ex]. congruence. }
  apply guard_err in E as [[G ->]|[G E]].
  - right. left. split; auto. right. right. exists m, d. split; auto. split; auto.
    split; [destruct selem; [apply erosion_ok; auto|congruence]|]. intros i j I. apply not_true_is_false. intro V.
    assert (existsb (fun b => b) (elements d) = true); [|congruence]. apply existsb_exists. exists true. split; auto. apply in_elements. eauto.
  - destruct (unwrap up small _ amplitude 21 0 64 false None) as [r|e'] eqn:Eu; cbn [bind] in E; [discriminate|]. exfalso.
    assert (exists r, unwrap up small (Arr (nr phase) (nc phase) (fun i j => if at2 d i j then at2 phase i j else nearest d phase i j)) amplitude 21 0 64 false None = Ok r) as [r Er];
      [|congruence].
    apply unwrap_accepts. split; [|split; [auto|split; [lia|split; [lia|split; [discriminate|discriminate]]]]].
    apply same_shape_iff in S. apply same_shape_iff. auto.
Qed.
End Unwrap.
