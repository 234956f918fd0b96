(** Command and height maps with the spline SciPy computes. *)
From Coq Require Import ZArith Bool List Reals Lra Lia Sorted Permutation.
From Verif.Base Require Import Py Arr.
From Verif.Model Require Import Fits GainMap.
From Verif.Spec Require Import GainMapSpec SplineSpec.
From Verif.Proofs Require Import GainMapP SplineP.
Import ListNotations.
Open Scope Z_scope.

Lemma points_length v c i j : c_n c = len v -> length (points v c i j) = length v.
Proof. intros Hn. unfold points. rewrite combine_length, (heights_len v c i j Hn). apply Nat.min_id. Qed.
Lemma points_fst v c i j : c_n c = len v -> map fst (points v c i j) = v.
Proof. intros Hn. unfold points. apply map_fst_combine. symmetry. apply heights_len. auto. Qed.
Lemma points_in v c i j k : c_n c = len v -> 0 <= k < len v -> In (command v k, height c i j k) (points v c i j).
Proof.
  intros Hn Hk. unfold points, command, height.
  replace (at3 c k i j) with (nthR (map (fun k => at3 c k i j) (zrange (c_n c))) k) by (unfold nthR; rewrite nth_zrange by lia; auto).
  unfold nthR. rewrite <- combine_nth by (symmetry; apply heights_len; auto). apply nth_In. rewrite combine_length, (heights_len v) by auto.
  rewrite Nat.min_id. unfold len in *. lia.
Qed.
Lemma points_inv_in v c i j k : c_n c = len v -> 0 <= k < len v -> In (height c i j k, command v k) (points_inv v c i j).
Proof.
  intros Hn Hk. unfold points_inv, command, height.
  replace (at3 c k i j) with (nthR (map (fun k => at3 c k i j) (zrange (c_n c))) k) by (unfold nthR; rewrite nth_zrange by lia; auto).
  unfold nthR. rewrite <- combine_nth by (apply heights_len; auto). apply nth_In. rewrite combine_length, (heights_len v) by auto.
  rewrite Nat.min_id. unfold len in *. lia.
Qed.
Lemma points_all v c i j p : c_n c = len v -> In p (points v c i j) -> exists k, 0 <= k < len v /\ p = (command v k, height c i j k).
Proof.
  intros Hn I. destruct p as [a b]. unfold points in I. apply in_combine_nth in I as (k & Hk & Hk' & <- & <-). exists k. split; [lia|].
  unfold command, height, nthR. rewrite nth_zrange by lia. reflexivity.
Qed.
Lemma points_inv_all v c i j p : c_n c = len v -> In p (points_inv v c i j) -> exists k, 0 <= k < len v /\ p = (height c i j k, command v k).
Proof.
  intros Hn I. destruct p as [a b]. unfold points_inv in I. apply in_combine_nth in I as (k & Hk & Hk' & <- & <-). exists k.
  rewrite len_map_zrange in Hk. split; [lia|].
  unfold command, height, nthR. rewrite nth_zrange by lia. reflexivity.
Qed.
Lemma points_inv_length v c i j : c_n c = len v -> length (points_inv v c i j) = length v.
Proof. intros Hn. unfold points_inv. rewrite combine_length, (heights_len v c i j Hn). apply Nat.min_id. Qed.

(** Distinct calibrated heights, rising or falling. *)
Lemma distinct_nodup v c i j : c_n c = len v -> heights_distinct v c i j -> NoDup (map (fun k => at3 c k i j) (zrange (c_n c))).
Proof.
  intros Hn H. apply nodup_nthR. intros k l Hk Hl. rewrite len_map_zrange in Hl.
  unfold nthR. rewrite !nth_zrange by lia. apply H; lia.
Qed.
Lemma increase_distinct v c i j : heights_increase v c i j -> heights_distinct v c i j.
Proof. intros H k l Hk Hl E. specialize (H k l Hk Hl). lra. Qed.

Section S.
  Variable spline : list (R * R) -> R -> R.
  (** ** Success exactly within the calibrated range *)
  Lemma cubic_inv xs ys x r : cubic_interp spline xs ys x = Ok r -> r = spline (combine xs ys) x /\
    (exists a, In a xs /\ (a <= x)%R) /\ (exists b, In b xs /\ (x <= b)%R).
  Proof.
    unfold cubic_interp. intros E. do 3 (apply guard_ok in E as [_ E]). apply guard_ok in E as [B E]. injection E as <-.
    apply andb_true_iff in B as [B1 B2]. apply exists_le in B1. apply exists_ge in B2. auto.
  Qed.
  Lemma heights_only v c n cmd h : calibration v c n n -> 4 <= len v -> nr cmd = n -> nc cmd = n ->
    heights_for_command_map spline cmd (F3 c) (F1 v) = Ok h -> forall i j, 0 <= i < n -> 0 <= j < n -> in_range v (at2 cmd i j).
  Proof.
    intros (S & Hn & Hr & Hc) Hl R C E i j Hi Hj. unfold heights_for_command_map in E. cbn [as_cube as_vector bind] in E.
    rewrite (proj2 (Z.eqb_eq (nr cmd) (c_cols c))), (proj2 (Z.eqb_eq (nc cmd) (c_rows c))) in E by lia. cbn [guard bind] in E.
    rewrite (proj2 (proj1 (verify_unique_spec v))) in E by (apply ascending_nodup; auto). cbn [bind] in E.
    rewrite presorted_complete in E by (apply ascending_le; auto). cbn [bind] in E.
    apply fill2_inv in E as (_ & _ & V). specialize (V i j ltac:(lia) ltac:(lia)). rewrite profile_ok in V by lia. cbn [bind] in V.
    apply cubic_inv in V as (_ & (a & Ia & La) & (b & Ib & Lb)).
    assert (P : forall t, In t v -> (command v 0 <= t <= command v (len v - 1))%R).
    { intros t It. destruct (In_nth v t 0%R It) as (k & Hk & <-).
      replace (nth k v 0%R) with (command v (Z.of_nat k)) by (unfold command, nthR; rewrite Nat2Z.id; reflexivity).
      apply (command_range v (Z.of_nat k) S). unfold len. lia. }
    pose proof (P a Ia). pose proof (P b Ib). unfold in_range. lra.
  Qed.
  Lemma heights_err v c n cmd e : calibration v c n n -> nr cmd = n -> nc cmd = n ->
    heights_for_command_map spline cmd (F3 c) (F1 v) = Err e -> e = ValueError.
  Proof.
    intros (S & Hn & Hr & Hc) R C E. unfold heights_for_command_map in E. cbn [as_cube as_vector bind] in E.
    rewrite (proj2 (Z.eqb_eq (nr cmd) (c_cols c))), (proj2 (Z.eqb_eq (nc cmd) (c_rows c))) in E by lia. cbn [guard bind] in E.
    rewrite (proj2 (proj1 (verify_unique_spec v))) in E by (apply ascending_nodup; auto). cbn [bind] in E.
    rewrite presorted_complete in E by (apply ascending_le; auto). cbn [bind] in E. unfold fill2 in E.
    destruct (first_err _ _) eqn:F; [|discriminate]. injection E as <-. apply first_err_some in F as (i & j & I & F).
    apply in_col_major in I as [Hi Hj]. rewrite profile_ok in F by lia. cbn [bind] in F. apply cubic_err in F. exact F.
  Qed.
  Lemma commands_ok' v c n hm : calibration v c n n -> 4 <= len v -> nr hm = n -> nc hm = n ->
    (forall i j, 0 <= i < n -> 0 <= j < n -> heights_distinct v c i j /\ height_reached v c i j (at2 hm i j)) ->
    exists o, commands_for_height_map spline hm (F3 c) (F1 v) = Ok o /\ nr o = n /\ nc o = n /\
    forall i j, 0 <= i < n -> 0 <= j < n -> at2 o i j = spline (points_inv v c i j) (at2 hm i j).
  Proof.
    intros (S & Hn & Hr & Hc) Hl R C B. unfold commands_for_height_map. cbn [as_cube as_vector bind].
    rewrite (proj2 (Z.eqb_eq (nr hm) (c_cols c))), (proj2 (Z.eqb_eq (nc hm) (c_rows c))) by lia. cbn [guard bind].
    rewrite (proj2 (proj1 (verify_unique_spec v))) by (apply ascending_nodup; auto). cbn [bind].
    rewrite presorted_complete by (apply ascending_le; auto). cbn [bind]. rewrite R, C.
    apply fill2_ok. intros i j Hi Hj. rewrite profile_ok by lia. cbn [bind]. unfold points_inv.
    destruct (B i j Hi Hj) as [I (k & l & Hk & Hk' & B')]. unfold height in B'.
    pose proof (heights_len v c i j Hn) as L.
    eapply cubic_ok; [exact L| | |apply (in_heights v c i j k); lia|apply (in_heights v c i j l); lia|exact B'].
    - rewrite L. unfold len in *. lia.
    - apply (distinct_nodup v); auto.
  Qed.
  Lemma commands_only v c n hm o : calibration v c n n -> nr hm = n -> nc hm = n ->
    commands_for_height_map spline hm (F3 c) (F1 v) = Ok o -> forall i j, 0 <= i < n -> 0 <= j < n -> height_reached v c i j (at2 hm i j).
  Proof.
    intros (S & Hn & Hr & Hc) R C E i j Hi Hj. unfold commands_for_height_map in E. cbn [as_cube as_vector bind] in E.
    rewrite (proj2 (Z.eqb_eq (nr hm) (c_cols c))), (proj2 (Z.eqb_eq (nc hm) (c_rows c))) in E by lia. cbn [guard bind] in E.
    rewrite (proj2 (proj1 (verify_unique_spec v))) in E by (apply ascending_nodup; auto). cbn [bind] in E.
    rewrite presorted_complete in E by (apply ascending_le; auto). cbn [bind] in E.
    apply fill2_inv in E as (_ & _ & V). specialize (V i j ltac:(lia) ltac:(lia)). rewrite profile_ok in V by lia. cbn [bind] in V.
    apply cubic_inv in V as (_ & (a & Ia & La) & (b & Ib & Lb)).
    apply in_map_iff in Ia as (k & <- & Ik). apply in_map_iff in Ib as (l & <- & Il). apply in_zrange in Ik, Il.
    exists k, l. unfold height. repeat split; auto; lia.
  Qed.
  Lemma commands_err v c n hm e : calibration v c n n -> nr hm = n -> nc hm = n ->
    commands_for_height_map spline hm (F3 c) (F1 v) = Err e -> e = ValueError.
  Proof.
    intros (S & Hn & Hr & Hc) R C E. unfold commands_for_height_map in E. cbn [as_cube as_vector bind] in E.
    rewrite (proj2 (Z.eqb_eq (nr hm) (c_cols c))), (proj2 (Z.eqb_eq (nc hm) (c_rows c))) in E by lia. cbn [guard bind] in E.
    rewrite (proj2 (proj1 (verify_unique_spec v))) in E by (apply ascending_nodup; auto). cbn [bind] in E.
    rewrite presorted_complete in E by (apply ascending_le; auto). cbn [bind] in E. unfold fill2 in E.
    destruct (first_err _ _) eqn:F; [|discriminate]. injection E as <-. apply first_err_some in F as (i & j & I & F).
    apply in_col_major in I as [Hi Hj]. rewrite profile_ok in F by lia. cbn [bind] in F. apply cubic_err in F. exact F.
  Qed.
  Lemma heights_iff v c n cmd : calibration v c n n -> 4 <= len v -> nr cmd = n -> nc cmd = n ->
    ((exists h, heights_for_command_map spline cmd (F3 c) (F1 v) = Ok h) <->
     forall i j, 0 <= i < n -> 0 <= j < n -> in_range v (at2 cmd i j)) /\
    (forall e, heights_for_command_map spline cmd (F3 c) (F1 v) = Err e -> e = ValueError).
  Proof.
    intros Cal Hl R C. split; [split|].
    - intros (h & E). eapply heights_only; eauto.
    - intros B. destruct (heights_ok spline v c n cmd Cal Hl R C B) as (h & E & _). eauto.
    - intros e. apply (heights_err v c n cmd e Cal R C).
  Qed.
  Lemma commands_iff v c n hm : calibration v c n n -> 4 <= len v -> nr hm = n -> nc hm = n ->
    (forall i j, 0 <= i < n -> 0 <= j < n -> heights_distinct v c i j) ->
    ((exists o, commands_for_height_map spline hm (F3 c) (F1 v) = Ok o) <->
     forall i j, 0 <= i < n -> 0 <= j < n -> height_reached v c i j (at2 hm i j)) /\
    (forall e, commands_for_height_map spline hm (F3 c) (F1 v) = Err e -> e = ValueError).
  Proof.
    intros Cal Hl R C D. split; [split|].
    - intros (o & E). eapply commands_only; eauto.
    - intros B. destruct (commands_ok' v c n hm Cal Hl R C) as (o & E & _); [intros; split; auto|]. eauto.
    - intros e. apply (commands_err v c n hm e Cal R C).
  Qed.

  Hypothesis SC : scipy_cubic spline.
  (** ** Exact responses *)
  Lemma points_exact v c i j p x : ascending v -> c_n c = len v -> 4 <= len v ->
    (forall k, 0 <= k < len v -> height c i j k = val p (command v k)) -> in_range v x -> spline (points v c i j) x = val p x.
  Proof.
    intros S Hn Hl E B.
    apply (spline_exact spline SC (points v c i j) p (command v 0, height c i j 0) (command v (len v - 1), height c i j (len v - 1))).
    - rewrite points_length by auto. unfold len in *. lia.
    - rewrite points_fst by auto. apply ascending_nodup. auto.
    - intros q Iq. apply points_all in Iq as (k & Hk & ->); auto. cbn [fst snd]. apply E. auto.
    - apply points_in; auto; lia.
    - apply points_in; auto; lia.
    - exact B.
  Qed.
  Lemma points_inv_exact v c i j p x : c_n c = len v -> 4 <= len v -> heights_distinct v c i j ->
    (forall k, 0 <= k < len v -> command v k = val p (height c i j k)) -> height_reached v c i j x ->
    spline (points_inv v c i j) x = val p x.
  Proof.
    intros Hn Hl D E (k & l & Hk & Hk' & B).
    apply (spline_exact spline SC (points_inv v c i j) p (height c i j k, command v k) (height c i j l, command v l)).
    - rewrite points_inv_length by auto. unfold len in *. lia.
    - unfold points_inv. rewrite map_fst_combine by (apply heights_len; auto). apply (distinct_nodup v); auto.
    - intros q Iq. apply points_inv_all in Iq as (m & Hm & ->); auto. cbn [fst snd]. apply E. auto.
    - apply points_inv_in; auto.
    - apply points_inv_in; auto.
    - exact B.
  Qed.
  Lemma points_spline v c i j : ascending v -> c_n c = len v -> 4 <= len v -> cubic_spline (points v c i j) (spline (points v c i j)).
  Proof.
    intros S Hn Hl. apply SC; [rewrite points_length by auto; unfold len in *; lia|apply Permutation_refl|rewrite points_fst by auto; exact S].
  Qed.
  Lemma points_inv_spline v c i j : c_n c = len v -> 4 <= len v -> heights_increase v c i j ->
    cubic_spline (points_inv v c i j) (spline (points_inv v c i j)).
  Proof.
    intros Hn Hl I. apply SC; [rewrite points_inv_length by auto; unfold len in *; lia|apply Permutation_refl|].
    unfold points_inv. rewrite map_fst_combine by (apply heights_len; auto).
    assert (G : forall l, (forall k m, 0 <= k < m -> m < len l -> (nthR l k < nthR l m)%R) -> StronglySorted Rlt l).
    { clear. induction l as [|a l IH]; intros H; constructor.
      - apply IH. intros k m Hk Hm. specialize (H (k + 1) (m + 1) ltac:(lia) ltac:(unfold len in *; cbn [length]; lia)).
        unfold nthR in *. replace (Z.to_nat (k + 1)) with (S (Z.to_nat k)) in H by lia. replace (Z.to_nat (m + 1)) with (S (Z.to_nat m)) in H by lia. exact H.
      - apply Forall_forall. intros t It. destruct (In_nth l t 0%R It) as (m & Hm & <-).
        specialize (H 0 (Z.of_nat m + 1) ltac:(lia) ltac:(unfold len; cbn [length]; lia)). unfold nthR in H.
        replace (Z.to_nat (Z.of_nat m + 1)) with (S m) in H by lia. exact H. }
    apply G. intros k m Hk Hm. rewrite len_map_zrange in Hm. unfold nthR. rewrite !nth_zrange by lia. apply I; lia.
  Qed.
  Lemma heights_spline v c n cmd : calibration v c n n -> 4 <= len v -> nr cmd = n -> nc cmd = n ->
    (forall i j, 0 <= i < n -> 0 <= j < n -> in_range v (at2 cmd i j)) ->
    exists h, heights_for_command_map spline cmd (F3 c) (F1 v) = Ok h /\ nr h = n /\ nc h = n /\
    forall i j, 0 <= i < n -> 0 <= j < n -> exists s, cubic_spline (points v c i j) s /\ at2 h i j = s (at2 cmd i j).
  Proof.
    intros Cal Hl R C B. destruct (heights_ok spline v c n cmd Cal Hl R C B) as (h & E & Rh & Ch & V). exists h.
    repeat (split; [auto|]). intros i j Hi Hj. exists (spline (points v c i j)). split; [|auto].
    destruct Cal as (S & Hn & _). apply points_spline; auto.
  Qed.
  Lemma heights_exact v c n cmd (p : Z -> Z -> cubic) : calibration v c n n -> 4 <= len v -> nr cmd = n -> nc cmd = n ->
    (forall i j, 0 <= i < n -> 0 <= j < n -> in_range v (at2 cmd i j) /\
       forall k, 0 <= k < len v -> height c i j k = val (p i j) (command v k)) ->
    exists h, heights_for_command_map spline cmd (F3 c) (F1 v) = Ok h /\ nr h = n /\ nc h = n /\
    forall i j, 0 <= i < n -> 0 <= j < n -> at2 h i j = val (p i j) (at2 cmd i j).
  Proof.
    intros Cal Hl R C B. destruct (heights_ok spline v c n cmd Cal Hl R C) as (h & E & Rh & Ch & V); [intros; apply B; auto|].
    exists h. repeat (split; [auto|]). intros i j Hi Hj. rewrite V by auto. destruct (B i j Hi Hj) as [B1 B2].
    destruct Cal as (S & Hn & _). apply points_exact; auto.
  Qed.
  Lemma commands_exact v c n hm (p : Z -> Z -> cubic) : calibration v c n n -> 4 <= len v -> nr hm = n -> nc hm = n ->
    (forall i j, 0 <= i < n -> 0 <= j < n -> heights_distinct v c i j /\ height_reached v c i j (at2 hm i j) /\
       forall k, 0 <= k < len v -> command v k = val (p i j) (height c i j k)) ->
    exists o, commands_for_height_map spline hm (F3 c) (F1 v) = Ok o /\ nr o = n /\ nc o = n /\
    forall i j, 0 <= i < n -> 0 <= j < n -> at2 o i j = val (p i j) (at2 hm i j).
  Proof.
    intros Cal Hl R C B. destruct (commands_ok' v c n hm Cal Hl R C) as (o & E & Ro & Co & V).
    { intros i j Hi Hj. split; apply B; auto. }
    exists o. repeat (split; [auto|]). intros i j Hi Hj. rewrite V by auto. destruct (B i j Hi Hj) as (B1 & B2 & B3).
    destruct Cal as (S & Hn & _). apply points_inv_exact; auto.
  Qed.
  Lemma commands_spline v c n hm : calibration v c n n -> 4 <= len v -> nr hm = n -> nc hm = n ->
    (forall i j, 0 <= i < n -> 0 <= j < n -> heights_increase v c i j /\ height_reached v c i j (at2 hm i j)) ->
    exists o, commands_for_height_map spline hm (F3 c) (F1 v) = Ok o /\ nr o = n /\ nc o = n /\
    forall i j, 0 <= i < n -> 0 <= j < n -> exists s, cubic_spline (points_inv v c i j) s /\ at2 o i j = s (at2 hm i j).
  Proof.
    intros Cal Hl R C B. destruct (commands_ok' v c n hm Cal Hl R C) as (o & E & Ro & Co & V).
    { intros i j Hi Hj. split; [apply increase_distinct|]; apply B; auto. }
    exists o. repeat (split; [auto|]). intros i j Hi Hj. exists (spline (points_inv v c i j)). split; [|auto].
    destruct Cal as (S & Hn & _). apply points_inv_spline; auto. apply B; auto.
  Qed.
  (** ** Actuators with a constant gain *)
  Definition line (g o : R) : cubic := Cubic o g 0 0.
  Lemma val_line g o x : val (line g o) x = (g * x + o)%R.
  Proof. unfold val, line. cbn [q0 q1 q2 q3]. ring. Qed.
  Lemma linear_distinct v c i j g o : ascending v -> (g <> 0)%R -> linear_response v c i j g o -> heights_distinct v c i j.
  Proof.
    intros S G H k l Hk Hl E. rewrite (H k), (H l) in E by lia. pose proof (ascending_nth v k l S Hk Hl) as L.
    unfold command in E. assert (g * (nthR v l - nthR v k) = 0)%R as Z by lra. apply Rmult_integral in Z as [Z|Z]; lra.
  Qed.
  Lemma linear_inv v c i j g o : (g <> 0)%R -> linear_response v c i j g o ->
    forall k, 0 <= k < len v -> command v k = val (line (/ g) (- o / g)) (height c i j k).
  Proof. intros G H k Hk. rewrite val_line, (H k Hk). field. auto. Qed.
  Lemma linear_reached v c i j g o x : 4 <= len v -> (g <> 0)%R -> linear_response v c i j g o -> in_range v x ->
    height_reached v c i j (g * x + o).
  Proof.
    intros Hl G H [B1 B2]. destruct (Rtotal_order g 0) as [L|[L|L]]; [|contradiction|].
    - exists (len v - 1), 0. split; [lia|]. split; [lia|]. rewrite !H by lia. split; nra.
    - exists 0, (len v - 1). split; [lia|]. split; [lia|]. rewrite !H by lia. split; nra.
  Qed.
  Lemma linear_round_trip v c n cmd (g o : Z -> Z -> R) : calibration v c n n -> 4 <= len v -> nr cmd = n -> nc cmd = n ->
    (forall i j, 0 <= i < n -> 0 <= j < n -> in_range v (at2 cmd i j) /\ g i j <> 0%R /\ linear_response v c i j (g i j) (o i j)) ->
    exists hm back, heights_for_command_map spline cmd (F3 c) (F1 v) = Ok hm /\
      (forall i j, 0 <= i < n -> 0 <= j < n -> at2 hm i j = (g i j * at2 cmd i j + o i j)%R) /\
      commands_for_height_map spline hm (F3 c) (F1 v) = Ok back /\ aeq back cmd.
  Proof.
    intros Cal Hl R C B. pose proof Cal as (S & Hn & _).
    destruct (heights_exact v c n cmd (fun i j => line (g i j) (o i j)) Cal Hl R C) as (hm & E & Rh & Ch & V).
    { intros i j Hi Hj. destruct (B i j Hi Hj) as (B1 & B2 & B3). split; auto. intros k Hk. rewrite val_line. apply B3. auto. }
    destruct (commands_exact v c n hm (fun i j => line (/ g i j) (- o i j / g i j)) Cal Hl Rh Ch) as (b & Eb & Rb & Cb & Vb).
    { intros i j Hi Hj. destruct (B i j Hi Hj) as (B1 & B2 & B3). split; [eapply linear_distinct; eauto|]. split; [|apply linear_inv; auto].
      rewrite V, val_line by auto. apply linear_reached; auto. }
    exists hm, b. split; [exact E|]. split; [intros; rewrite V, val_line by auto; reflexivity|]. split; [exact Eb|].
    split; [congruence|]. split; [congruence|]. intros i j [Hi Hj]. rewrite Rb in Hi. rewrite Cb in Hj.
    rewrite Vb, V, !val_line by auto. destruct (B i j Hi Hj) as (B1 & B2 & B3). field. auto.
  Qed.
  (** Starting commands for constant positive gains: the height change divided by the gain, limited to the calibrated commands. *)
  Lemma starting_linear v c n flat delta (g o : Z -> Z -> R) : calibration v c n n -> 4 <= len v ->
    nr flat = n -> nc flat = n -> nr delta = n -> nc delta = n ->
    (forall i j, 0 <= i < n -> 0 <= j < n -> in_range v (at2 flat i j) /\ (0 < g i j)%R /\ linear_response v c i j (g i j) (o i j)) ->
    exists s, starting_commands spline flat delta (F3 c) (F1 v) = Ok s /\ nr s = n /\ nc s = n /\
    forall i j, 0 <= i < n -> 0 <= j < n ->
      at2 s i j = clamp (command v 0) (command v (len v - 1)) (at2 flat i j + at2 delta i j / g i j).
  Proof.
    intros Cal Hl R1 C1 R2 C2 B. pose proof Cal as (S & Hn & _).
    assert (I : forall i j, 0 <= i < n -> 0 <= j < n -> heights_increase v c i j).
    { intros i j Hi Hj k l Hk Hk'. destruct (B i j Hi Hj) as (_ & G & L). rewrite (L k), (L l) by lia.
      pose proof (ascending_nth v k l S Hk Hk'). unfold command. nra. }
    destruct (starting_ok spline v c n flat delta Cal Hl R1 C1 R2 C2) as (s & E & Rs & Cs & V).
    { intros i j Hi Hj. split; [apply B|apply I]; auto. }
    exists s. repeat (split; [auto|]). intros i j Hi Hj. rewrite V by auto. destruct (B i j Hi Hj) as (B1 & G & L).
    rewrite (points_exact v c i j (line (g i j) (o i j))); auto; [|intros k Hk; rewrite val_line; apply L; auto].
    rewrite val_line. rewrite !(L _) by lia.
    pose proof (ascending_nth v 0 (len v - 1) S ltac:(lia) ltac:(lia)) as A. fold (command v 0) in A. fold (command v (len v - 1)) in A.
    set (lo := command v 0) in *. set (hi := command v (len v - 1)) in *.
    rewrite (points_inv_exact v c i j (line (/ g i j) (- o i j / g i j))); auto.
    - rewrite val_line. unfold clamp, Rmax, Rmin.
      set (f := at2 flat i j) in *. set (t := at2 delta i j) in *. set (G' := g i j) in *. set (o' := o i j) in *.
      assert (Ef : (/ G' * (G' * f + o' + t) + - o' / G' = f + t / G')%R) by (field; lra).
      assert (El : (/ G' * (G' * lo + o') + - o' / G' = lo)%R) by (field; lra).
      assert (Eh : (/ G' * (G' * hi + o') + - o' / G' = hi)%R) by (field; lra).
      assert (Z : (G' * f + o' + t = G' * (f + t / G') + o')%R) by (field; lra). rewrite Z in *.
      set (u := (f + t / G')%R) in *.
      destruct (Rle_dec (G' * hi + o') (G' * u + o')); destruct (Rle_dec hi u); try nra;
        repeat destruct (Rle_dec _ _); try nra; lra.
    - apply increase_distinct. apply I; auto.
    - apply linear_inv; [lra|auto].
    - exists 0, (len v - 1). split; [lia|]. split; [lia|]. rewrite !(L _) by lia. fold lo hi. apply clamp_bounds. nra.
  Qed.
  Lemma transfer_linear v c n flat hole delta (g o : Z -> Z -> R) : calibration v c n n -> 4 <= len v ->
    nr flat = n -> nc flat = n -> nr hole = n -> nc hole = n ->
    (forall i j, 0 <= i < n -> 0 <= j < n -> in_range v (at2 flat i j) /\ in_range v (at2 hole i j) /\ (0 < g i j)%R /\
       linear_response v c i j (g i j) (o i j)) ->
    delta_height_map spline flat hole (F3 c) (F1 v) = Ok delta ->
    exists s, starting_commands spline flat delta (F3 c) (F1 v) = Ok s /\ aeq s hole.
  Proof.
    intros Cal Hl R1 C1 R2 C2 B E. pose proof Cal as (S & Hn & _).
    destruct (delta_ok spline v c n flat hole Cal Hl R1 C1 R2 C2) as (d & Ed & Rd & Cd & Vd).
    { intros i j Hi Hj. destruct (B i j Hi Hj) as (B1 & B2 & _). auto. }
    rewrite E in Ed. injection Ed as <-.
    destruct (starting_linear v c n flat delta g o Cal Hl R1 C1 Rd Cd) as (s & Es & Rs & Cs & Vs).
    { intros i j Hi Hj. destruct (B i j Hi Hj) as (B1 & B2 & B3 & B4). auto. }
    exists s. split; [auto|]. split; [congruence|]. split; [congruence|]. intros i j [Hi Hj]. rewrite Rs in Hi. rewrite Cs in Hj.
    destruct (B i j Hi Hj) as (B1 & B2 & B3 & B4).
    assert (P : forall k, 0 <= k < len v -> height c i j k = val (line (g i j) (o i j)) (command v k))
      by (intros k Hk; rewrite val_line; apply B4; auto).
    rewrite Vs, Vd by auto. rewrite !(points_exact v c i j (line (g i j) (o i j))), !val_line by auto.
    replace (at2 flat i j + (g i j * at2 hole i j + o i j - (g i j * at2 flat i j + o i j)) / g i j)%R with (at2 hole i j) by (field; lra).
    apply clamp_id. exact B2.
  Qed.
  (** ** Height differences for cubic responses *)
  Lemma delta_cubic v c n before after (p : Z -> Z -> cubic) : calibration v c n n -> 4 <= len v ->
    nr before = n -> nc before = n -> nr after = n -> nc after = n ->
    (forall i j, 0 <= i < n -> 0 <= j < n -> in_range v (at2 before i j) /\ in_range v (at2 after i j) /\
       forall k, 0 <= k < len v -> height c i j k = val (p i j) (command v k)) ->
    exists o, delta_height_map spline before after (F3 c) (F1 v) = Ok o /\ nr o = n /\ nc o = n /\
    forall i j, 0 <= i < n -> 0 <= j < n -> at2 o i j = (val (p i j) (at2 after i j) - val (p i j) (at2 before i j))%R.
  Proof.
    intros Cal Hl R1 C1 R2 C2 B. pose proof Cal as (S & Hn & _).
    destruct (delta_ok spline v c n before after Cal Hl R1 C1 R2 C2) as (o & E & Ro & Co & V).
    { intros i j Hi Hj. destruct (B i j Hi Hj) as (B1 & B2 & _). auto. }
    exists o. repeat (split; [auto|]). intros i j Hi Hj. destruct (B i j Hi Hj) as (B1 & B2 & B3).
    rewrite V by auto. rewrite !(points_exact v c i j (p i j)) by auto. reflexivity.
  Qed.
End S.

(** The maps do not depend on the implementation of the spline. *)
Lemma heights_determined s1 s2 v c n cmd a b : scipy_cubic s1 -> scipy_cubic s2 -> calibration v c n n -> 4 <= len v ->
  nr cmd = n -> nc cmd = n -> heights_for_command_map s1 cmd (F3 c) (F1 v) = Ok a -> heights_for_command_map s2 cmd (F3 c) (F1 v) = Ok b -> aeq a b.
Proof.
  intros H1 H2 Cal Hl R C E1 E2. pose proof (heights_only s1 v c n cmd a Cal Hl R C E1) as B.
  destruct (heights_ok s1 v c n cmd Cal Hl R C B) as (a' & E1' & Ra & Ca & Va).
  destruct (heights_ok s2 v c n cmd Cal Hl R C B) as (b' & E2' & Rb & Cb & Vb).
  rewrite E1 in E1'. rewrite E2 in E2'. injection E1' as <-. injection E2' as <-.
  split; [congruence|]. split; [congruence|]. intros i j [Hi Hj]. rewrite Ra in Hi. rewrite Ca in Hj.
  rewrite Va, Vb by auto. destruct Cal as (S & Hn & _).
  apply (spline_det s1 H1 s2 _ (command v 0, height c i j 0) (command v (len v - 1), height c i j (len v - 1))); auto.
  - rewrite points_length by auto. unfold len in *. lia.
  - rewrite points_fst by auto. apply ascending_nodup. auto.
  - apply points_in; auto; lia.
  - apply points_in; auto; lia.
  - exact (B i j Hi Hj).
Qed.
