(** C38, C39, C40, C61: gain maps, calibration and transfer of DM settings. *)
From Coq Require Import ZArith Bool List Reals Lra Lia Sorted.
From Verif.Base Require Import Py Arr.
From Verif.Model Require Import Fits GainMap.
From Verif.Spec Require Import GainMapSpec.
From Verif.Proofs Require Import GainMapP.
Import ListNotations.
Open Scope Z_scope.

(** ** C38 vector validation *)
Theorem C38_unique_values : forall v, (verify_unique v = Ok tt <-> NoDup v) /\ (~ NoDup v -> verify_unique v = Err ValueError).
Proof. exact verify_unique_spec. Qed.
Print Assumptions C38_unique_values.
Theorem C38_sorted_accepted : forall v, nondecreasing v -> verify_presorted v = Ok tt.
Proof. exact presorted_complete. Qed.
Print Assumptions C38_sorted_accepted.
(** What acceptance guarantees: no value exceeds a later one by more than twice the tolerance of allclose. *)
Theorem C38_accepted_nearly_sorted_partial : forall v M, verify_presorted v = Ok tt -> (forall x, In x v -> (Rabs x <= M)%R) ->
  forall i j, 0 <= i < j -> j < len v -> (nthR v i - nthR v j <= 2 * (/ 2 ^ 52 + / 100000 * M))%R.
Proof. exact presorted_sound. Qed.
Print Assumptions C38_accepted_nearly_sorted_partial.
Theorem C38_ascending_differences : forall v, ascending v -> 0 < len v -> exists dm, diff_and_mean (F1 v) = Ok dm /\
  len (fst dm) = Z.max 0 (len v - 1) /\ len (snd dm) = Z.max 0 (len v - 1) /\
  forall k, 0 <= k < len v - 1 -> nthR (fst dm) k = (nthR v (k + 1) - nthR v k)%R /\ (0 < nthR (fst dm) k)%R /\
    nthR (snd dm) k = ((nthR v k + nthR v (k + 1)) / 2)%R /\ (nthR v k < nthR (snd dm) k < nthR v (k + 1))%R.
Proof. exact diff_mean_ok. Qed.
Print Assumptions C38_ascending_differences.
(** Unsorted duplicate-free vectors are accepted, with a negative interval as the result. *)
Theorem C38_presorted_refuted : ~ (forall v, verify_presorted v = Ok tt -> nondecreasing v).
Proof. intros H. destruct bad_vec_accepted as (_ & _ & P & N & _). apply N, H, P. Qed.
Print Assumptions C38_presorted_refuted.
Theorem C38_positive_differences_refuted : exists v dm, diff_and_mean (F1 v) = Ok dm /\ 0 < len (fst dm) /\ (nthR (fst dm) 0 < 0)%R.
Proof.
  destruct bad_vec_accepted as (_ & U & P & _ & dm & E & L). exists bad_vec, dm. split; [exact E|]. split; [|exact L].
  unfold diff_and_mean in E. cbn [as_vector bind] in E. rewrite U, P in E. cbn in E. injection E as <-. reflexivity.
Qed.
Print Assumptions C38_positive_differences_refuted.

(** ** C39 quadratic actuators *)
Theorem C39_quadratic_square_partial : forall v c cmd n (a b d : Z -> Z -> R), calibration v c n n -> 3 <= len v ->
  nr cmd = n -> nc cmd = n ->
  (forall i j k, 0 <= i < n -> 0 <= j < n -> 0 <= k < len v ->
     height c i j k = (a i j * command v k ^ 2 + b i j * command v k + d i j)%R) ->
  exists out, compute_gainmap cmd (F3 c) (F1 v) = Ok out /\ nr out = n /\ nc out = n /\
   forall i j, 0 <= i < n -> 0 <= j < n -> at2 out i j = Some (2 * a i j * at2 cmd i j + b i j)%R.
Proof. exact gainmap_quadratic. Qed.
Print Assumptions C39_quadratic_square_partial.
(** Non-square DMs: whatever the cube, the call fails. *)
Theorem C39_nonsquare_refuted : forall cmd c v, 0 < nr cmd -> 0 < nc cmd -> nr cmd <> nc cmd -> ascending v ->
  exists e, compute_gainmap cmd (F3 c) (F1 v) = Err e /\ (e = IndexError \/ e = ValueError).
Proof. exact gainmap_nonsquare. Qed.
Print Assumptions C39_nonsquare_refuted.

(** ** C40 starting commands *)
Theorem C40_clamped_partial : forall spline v c n flat delta, calibration v c n n -> 4 <= len v ->
  nr flat = n -> nc flat = n -> nr delta = n -> nc delta = n ->
  (forall i j, 0 <= i < n -> 0 <= j < n -> in_range v (at2 flat i j) /\ heights_increase v c i j) ->
  exists o, starting_commands spline flat delta (F3 c) (F1 v) = Ok o /\ nr o = n /\ nc o = n /\
  forall i j, 0 <= i < n -> 0 <= j < n ->
    at2 o i j = spline (points_inv v c i j)
      (clamp (height c i j 0) (height c i j (len v - 1)) (spline (points v c i j) (at2 flat i j) + at2 delta i j)).
Proof. exact starting_ok. Qed.
Print Assumptions C40_clamped_partial.
Theorem C40_saturates_partial : forall spline, interpolates spline -> forall v c n flat delta o, calibration v c n n -> 4 <= len v ->
  nr flat = n -> nc flat = n -> nr delta = n -> nc delta = n ->
  (forall i j, 0 <= i < n -> 0 <= j < n -> in_range v (at2 flat i j) /\ heights_increase v c i j) ->
  starting_commands spline flat delta (F3 c) (F1 v) = Ok o ->
  forall i j, 0 <= i < n -> 0 <= j < n ->
    ((height c i j (len v - 1) <= spline (points v c i j) (at2 flat i j) + at2 delta i j)%R -> at2 o i j = command v (len v - 1)) /\
    ((spline (points v c i j) (at2 flat i j) + at2 delta i j <= height c i j 0)%R -> at2 o i j = command v 0).
Proof. exact starting_saturates. Qed.
Print Assumptions C40_saturates_partial.
Theorem C40_calibration_points_partial : forall spline, interpolates spline -> forall v c n flat delta (K L : Z -> Z -> Z),
  calibration v c n n -> 4 <= len v ->
  nr flat = n -> nc flat = n -> nr delta = n -> nc delta = n ->
  (forall i j, 0 <= i < n -> 0 <= j < n -> heights_increase v c i j /\ 0 <= K i j < len v /\ 0 <= L i j < len v /\
     at2 flat i j = command v (K i j) /\ at2 delta i j = (height c i j (L i j) - height c i j (K i j))%R) ->
  exists o, starting_commands spline flat delta (F3 c) (F1 v) = Ok o /\ nr o = n /\ nc o = n /\
  forall i j, 0 <= i < n -> 0 <= j < n -> at2 o i j = command v (L i j).
Proof. exact starting_calibrated. Qed.
Print Assumptions C40_calibration_points_partial.
(** An actuator whose height falls as its command rises always ends at the last command, whatever was requested. *)
Theorem C40_decreasing_refuted : forall spline, interpolates spline -> forall v c n flat delta o, calibration v c n n -> 4 <= len v ->
  nr flat = n -> nc flat = n -> nr delta = n -> nc delta = n ->
  starting_commands spline flat delta (F3 c) (F1 v) = Ok o ->
  forall i j, 0 <= i < n -> 0 <= j < n ->
   (forall k l, 0 <= k < l -> l < len v -> (height c i j l < height c i j k)%R) -> at2 o i j = command v (len v - 1).
Proof. exact starting_decreasing. Qed.
Print Assumptions C40_decreasing_refuted.
Theorem C40_nonsquare_refuted : forall spline v c flat delta, 0 < nr flat -> 0 < nc flat -> nr flat <> nc flat ->
  exists e, starting_commands spline flat delta (F3 c) (F1 v) = Err e /\ (e = IndexError \/ e = ValueError).
Proof. exact starting_nonsquare. Qed.
Print Assumptions C40_nonsquare_refuted.

(** ** C61 height differences and transfer of a setting *)
Theorem C61_delta_heights_partial : forall spline v c n before after, calibration v c n n -> 4 <= len v ->
  nr before = n -> nc before = n -> nr after = n -> nc after = n ->
  (forall i j, 0 <= i < n -> 0 <= j < n -> in_range v (at2 before i j) /\ in_range v (at2 after i j)) ->
  exists o, delta_height_map spline before after (F3 c) (F1 v) = Ok o /\ nr o = n /\ nc o = n /\
  forall i j, 0 <= i < n -> 0 <= j < n ->
    at2 o i j = (spline (points v c i j) (at2 after i j) - spline (points v c i j) (at2 before i j))%R.
Proof. exact delta_ok. Qed.
Print Assumptions C61_delta_heights_partial.
Theorem C61_transfer_partial : forall spline, interpolates spline -> forall v c n flat hole (K L : Z -> Z -> Z) delta,
  calibration v c n n -> 4 <= len v ->
  nr flat = n -> nc flat = n -> nr hole = n -> nc hole = n ->
  (forall i j, 0 <= i < n -> 0 <= j < n -> heights_increase v c i j /\ 0 <= K i j < len v /\ 0 <= L i j < len v /\
     at2 flat i j = command v (K i j) /\ at2 hole i j = command v (L i j)) ->
  delta_height_map spline flat hole (F3 c) (F1 v) = Ok delta ->
  exists o, starting_commands spline flat delta (F3 c) (F1 v) = Ok o /\ aeq o hole.
Proof. exact transfer. Qed.
Print Assumptions C61_transfer_partial.

(** ** The hypotheses are met: a 2-by-2 DM with four commands *)
Definition ex_v : list R := [0; 1; 2; 3]%R.
Definition ex_h (k : Z) : R := (IZR k ^ 2 + IZR k)%R.
Definition ex_c : cube := Cube 4 2 2 (fun k i j => (ex_h k + IZR i - IZR j)%R).
Lemma ex_ascending : ascending ex_v.
Proof. unfold ascending, ex_v. repeat (constructor; [|repeat (constructor; [lra|]); constructor]). constructor. Qed.
Lemma ex_at k : 0 <= k < 4 -> command ex_v k = IZR k.
Proof. intros H. assert (k = 0 \/ k = 1 \/ k = 2 \/ k = 3) as [-> | [-> | [-> | ->]]] by lia; reflexivity. Qed.
Example C38_example : ascending ex_v /\ nondecreasing ex_v /\ NoDup ex_v /\ verify_presorted ex_v = Ok tt /\ ~ NoDup [1; 2; 1]%R.
Proof.
  split; [apply ex_ascending|]. split; [apply ascending_le, ex_ascending|]. split; [apply ascending_nodup, ex_ascending|].
  split; [apply presorted_complete, ascending_le, ex_ascending|]. intros D. inversion D. apply H1. cbn. auto.
Qed.
Example C39_example : calibration ex_v ex_c 2 2 /\ 3 <= len ex_v /\
  (forall i j k, 0 <= i < 2 -> 0 <= j < 2 -> 0 <= k < len ex_v ->
     height ex_c i j k = (1 * command ex_v k ^ 2 + 1 * command ex_v k + (IZR i - IZR j))%R).
Proof.
  split; [split; [apply ex_ascending|repeat split]|]. split; [cbn; lia|]. intros i j k _ _ Hk. change (len ex_v) with 4 in Hk.
  rewrite ex_at by auto. unfold height, ex_c, ex_h. cbn [at3]. ring.
Qed.
Example C40_example : calibration ex_v ex_c 2 2 /\ 4 <= len ex_v /\ interpolates spline_ref /\
  (forall i j, 0 <= i < 2 -> 0 <= j < 2 -> heights_increase ex_v ex_c i j /\ in_range ex_v 1%R /\
     (1%R = command ex_v 1 /\ 3%R = command ex_v 3 /\ 10%R = (height ex_c i j 3 - height ex_c i j 1)%R)).
Proof.
  split; [apply C39_example|]. split; [cbn; lia|]. split; [exact spline_ref_ok|]. intros i j _ _. split.
  - intros k l Hk Hl. change (len ex_v) with 4 in Hl. unfold height, ex_c, ex_h. cbn [at3].
    assert (IZR k < IZR l)%R by (apply IZR_lt; lia). assert (0 <= IZR k)%R by (apply IZR_le; lia). nra.
  - split; [change (0 <= 1 <= 3)%R; lra|]. split; [reflexivity|]. split; [reflexivity|]. unfold height, ex_c, ex_h. cbn [at3]. ring.
Qed.
(** A one-actuator DM whose height falls with command: a zero height change from command 1 gives command 3. *)
Definition ex_neg : cube := Cube 4 1 1 (fun k i j => (- IZR k)%R).
Example C40_decreasing_example :
  exists o, starting_commands spline_ref (afull 1 1 1%R) (afull 1 1 0%R) (F3 ex_neg) (F1 ex_v) = Ok o /\ at2 o 0 0 = 3%R.
Proof.
  assert (Cal : calibration ex_v ex_neg 1 1) by (split; [apply ex_ascending|repeat split]).
  destruct (starting_commands spline_ref (afull 1 1 1%R) (afull 1 1 0%R) (F3 ex_neg) (F1 ex_v)) as [o|e] eqn:E.
  - exists o. split; auto.
    rewrite (C40_decreasing_refuted spline_ref spline_ref_ok ex_v ex_neg 1 (afull 1 1 1%R) (afull 1 1 0%R) o Cal ltac:(cbn; lia) eq_refl eq_refl eq_refl eq_refl E); try lia.
    + reflexivity.
    + intros k l Hk Hl. unfold height, ex_neg. cbn [at3]. assert (IZR k < IZR l)%R by (apply IZR_lt; lia). lra.
  - exfalso. destruct (heights_ok spline_ref ex_v ex_neg 1 (afull 1 1 1%R) Cal ltac:(cbn; lia) eq_refl eq_refl) as (h & Eh & Rh & Ch & Vh).
    { intros. change (0 <= 1 <= 3)%R. lra. }
    unfold starting_commands in E. rewrite shape_close_refl in E by reflexivity. cbn [guard bind] in E. rewrite Eh in E. cbn [bind] in E.
    unfold add2 in E. rewrite (proj2 (same_shape_iff h _)) in E by (split; cbn; auto). cbn [guard bind as_cube amap2 nr nc at2] in E.
    unfold commands_for_height_map in E. cbn [as_cube as_vector bind nr nc] in E. rewrite Rh, Ch in E.
    cbn [c_rows c_cols ex_neg guard bind Z.eqb Pos.eqb] in E.
    rewrite (proj2 (proj1 (verify_unique_spec ex_v))) in E by (apply ascending_nodup, ex_ascending). cbn [bind] in E.
    rewrite presorted_complete in E by (apply ascending_le, ex_ascending). cbn [bind] in E.
    unfold fill2 in E. destruct (first_err _ _) eqn:F; [|discriminate].
    apply first_err_some in F as (i & j & I & F). apply in_col_major in I as [Hi Hj]. assert (i = 0) as -> by lia. assert (j = 0) as -> by lia.
    cbn [at2] in F. rewrite Vh in F by lia. cbn [afull at2 c_n ex_neg] in F. 
    replace (spline_ref (points ex_v ex_neg 0 0) 1) with (-1)%R in F.
    2:{ symmetry. replace (-1)%R with (height ex_neg 0 0 1) by (unfold height, ex_neg; cbn [at3]; lra).
        change 1%R with (command ex_v 1). apply points_at; [apply spline_ref_ok|apply ex_ascending|reflexivity|cbn; lia]. }
    replace (at3 ex_neg 0 0 0) with 0%R in F by (unfold ex_neg; cbn [at3]; lra).
    change (at3 ex_neg (4 - 1) 0 0) with (- IZR 3)%R in F.
    rewrite (proj2 (FitsP.Rltb_iff (-1 + 0) 0)) in F by lra. rewrite (proj2 (FitsP.Rltb_iff (- IZR 3) 0)) in F by lra.
    rewrite profile_ok in F by (cbn; lia). cbn [bind] in F.
    rewrite (cubic_ok spline_ref _ _ _ (- IZR 3) (- IZR 3)) in F; try discriminate.
    + reflexivity.
    + apply Nat.leb_le; reflexivity.
    + apply nodup_nthR. intros k l Hk Hl. rewrite len_map_zrange in Hl. cbn [c_n ex_neg] in Hl. unfold nthR. rewrite !nth_zrange by (cbn [c_n ex_neg]; lia).
      cbn [at3 ex_neg]. assert (IZR k < IZR l)%R by (apply IZR_lt; lia). lra.
    + apply (in_heights ex_v ex_neg 0 0 3); [reflexivity|cbn; lia].
    + apply (in_heights ex_v ex_neg 0 0 3); [reflexivity|cbn; lia].
    + lra.
Qed.
