(** One actuator with height k^2 + k at command k = 0, 1, 2, 3. *)
From Coq Require Import ZArith Bool List Reals Lra Lia Sorted.
From Verif.Base Require Import Py Arr.
From Verif.Model Require Import Fits GainMap.
From Verif.Spec Require Import GainMapSpec SplineSpec.
From Verif.Proofs Require Import GainMapP SplineP GainSpline.
Import ListNotations.
Open Scope Z_scope.

Definition qv : list R := [0; 1; 2; 3]%R.
Definition qc : cube := Cube 4 1 1 (fun k _ _ => (IZR k ^ 2 + IZR k)%R).
Lemma q_ascending : ascending qv.
Proof. unfold ascending, qv. repeat (constructor; [|repeat (constructor; [lra|]); constructor]). constructor. Qed.
Lemma q_calibration : calibration qv qc 1 1.
Proof. split; [apply q_ascending|]. repeat split. Qed.
Lemma q_command k : 0 <= k < 4 -> command qv k = IZR k.
Proof. intros H. assert (k = 0 \/ k = 1 \/ k = 2 \/ k = 3) as [-> | [-> | [-> | ->]]] by lia; reflexivity. Qed.
Lemma q_increase i j : heights_increase qv qc i j.
Proof.
  intros k l Hk Hl. change (len qv) with 4 in Hl. unfold height, qc. cbn [at3].
  assert (IZR k < IZR l)%R by (apply IZR_lt; lia). assert (0 <= IZR k)%R by (apply IZR_le; lia). nra.
Qed.
Definition fwd : cubic := Cubic 0 1 1 0.
Definition bwd : cubic := Cubic 0 (37 / 60) (- 23 / 360) (/ 360).
Lemma q_fwd i j k : 0 <= k < len qv -> height qc i j k = val fwd (command qv k).
Proof. intros H. change (len qv) with 4 in H. rewrite q_command by auto. unfold height, qc, val, fwd. cbn [at3 q0 q1 q2 q3]. ring. Qed.
Lemma q_bwd i j k : 0 <= k < len qv -> command qv k = val bwd (height qc i j k).
Proof.
  intros H. change (len qv) with 4 in H. rewrite q_command by auto. unfold height, qc, val, bwd. cbn [at3 q0 q1 q2 q3].
  assert (k = 0 \/ k = 1 \/ k = 2 \/ k = 3) as [-> | [-> | [-> | ->]]] by lia; field.
Qed.
Definition half3 : arr R := afull 1 1 (3 / 2)%R.
Lemma half_range : in_range qv (3 / 2)%R.
Proof. change (0 <= 3 / 2 <= 3)%R. lra. Qed.
Lemma q_reached i j : height_reached qv qc i j (15 / 4)%R.
Proof. exists 1, 2. change (len qv) with 4. split; [lia|]. split; [lia|]. unfold height, qc. cbn [at3]. lra. Qed.
Lemma q_val_bwd : val bwd (15 / 4) <> (3 / 2)%R.
Proof. unfold val, bwd. cbn [q0 q1 q2 q3]. lra. Qed.
Section S.
  Variable spline : list (R * R) -> R -> R.
  Hypothesis SC : scipy_cubic spline.
  Lemma q_heights : exists hm, heights_for_command_map spline half3 (F3 qc) (F1 qv) = Ok hm /\ nr hm = 1 /\ nc hm = 1 /\ at2 hm 0 0 = (15 / 4)%R.
  Proof.
    destruct (heights_exact spline SC qv qc 1 half3 (fun _ _ => fwd) q_calibration ltac:(cbn; lia) eq_refl eq_refl) as (hm & E & R & C & V).
    { intros i j Hi Hj. split; [exact half_range|]. intros k Hk. apply q_fwd; auto. }
    exists hm. split; [exact E|]. split; [exact R|]. split; [exact C|]. rewrite V by lia. unfold val, fwd, half3. cbn [at2 afull q0 q1 q2 q3]. field.
  Qed.
  Lemma q_round_trip : exists hm back, heights_for_command_map spline half3 (F3 qc) (F1 qv) = Ok hm /\
    commands_for_height_map spline hm (F3 qc) (F1 qv) = Ok back /\ at2 back 0 0 <> at2 half3 0 0.
  Proof.
    destruct q_heights as (hm & E & R & C & V).
    destruct (commands_exact spline SC qv qc 1 hm (fun _ _ => bwd) q_calibration ltac:(cbn; lia) R C) as (b & Eb & Rb & Cb & Vb).
    { intros i j Hi Hj. assert (i = 0) as -> by lia. assert (j = 0) as -> by lia. split; [apply increase_distinct, q_increase|].
      split; [rewrite V; apply q_reached|]. intros k Hk. apply q_bwd; auto. }
    exists hm, b. split; [exact E|]. split; [exact Eb|]. rewrite Vb by lia. rewrite V. apply q_val_bwd.
  Qed.
  (** From command 0 to 3/2 and back through the height difference. *)
  Lemma q_transfer : exists delta s, delta_height_map spline (afull 1 1 0%R) half3 (F3 qc) (F1 qv) = Ok delta /\
    starting_commands spline (afull 1 1 0%R) delta (F3 qc) (F1 qv) = Ok s /\ at2 s 0 0 <> at2 half3 0 0.
  Proof.
    assert (Z : in_range qv 0%R) by (change (0 <= 0 <= 3)%R; lra).
    destruct (delta_cubic spline SC qv qc 1 (afull 1 1 0%R) half3 (fun _ _ => fwd) q_calibration ltac:(cbn; lia) eq_refl eq_refl eq_refl eq_refl) as (d & E & R & C & V).
    { intros i j Hi Hj. split; [exact Z|]. split; [exact half_range|]. intros k Hk. apply q_fwd; auto. }
    destruct (starting_ok spline qv qc 1 (afull 1 1 0%R) d q_calibration ltac:(cbn; lia) eq_refl eq_refl R C) as (s & Es & Rs & Cs & Vs).
    { intros i j Hi Hj. split; [exact Z|apply q_increase]. }
    exists d, s. split; [exact E|]. split; [exact Es|]. rewrite Vs, V by lia. cbn [at2 afull half3].
    rewrite (points_exact spline SC qv qc 0 0 fwd 0%R q_ascending eq_refl ltac:(cbn; lia) (q_fwd 0 0) Z).
    replace (val fwd 0 + (val fwd (3 / 2) - val fwd 0))%R with (15 / 4)%R by (unfold val, fwd; cbn [q0 q1 q2 q3]; field).
    rewrite clamp_id by (change (len qv) with 4; unfold height, qc; cbn [at3]; change (4 - 1) with 3; lra).
    rewrite (points_inv_exact spline SC qv qc 0 0 bwd _ eq_refl ltac:(cbn; lia) (increase_distinct _ _ _ _ (q_increase 0 0)) (q_bwd 0 0) (q_reached 0 0)).
    apply q_val_bwd.
  Qed.
End S.
(** A falling actuator of constant gain -2. *)
Definition nc_ : cube := Cube 4 1 1 (fun k _ _ => (- 2 * IZR k + 7)%R).
Lemma n_linear : calibration qv nc_ 1 1 /\ linear_response qv nc_ 0 0 (- 2)%R 7%R.
Proof.
  split; [split; [apply q_ascending|repeat split]|]. intros k Hk. change (len qv) with 4 in Hk. rewrite q_command by auto. reflexivity.
Qed.
(** A rising one of gain 2. *)
Definition pc_ : cube := Cube 4 1 1 (fun k _ _ => (2 * IZR k + 7)%R).
Lemma p_linear : calibration qv pc_ 1 1 /\ linear_response qv pc_ 0 0 2%R 7%R.
Proof.
  split; [split; [apply q_ascending|repeat split]|]. intros k Hk. change (len qv) with 4 in Hk. rewrite q_command by auto. reflexivity.
Qed.

(** ** Refused calls *)
Section Rej.
  Variable spline : list (R * R) -> R -> R.
  Lemma rejects_cube d1 d2 m : (forall c, d1 <> F3 c) ->
    heights_for_command_map spline m d1 d2 = Err ValueError /\ commands_for_height_map spline m d1 d2 = Err ValueError.
  Proof. intros H. destruct d1; try (split; reflexivity). exfalso. eapply H. reflexivity. Qed.
  Lemma rejects_shape c d2 m : nr m <> c_cols c \/ nc m <> c_rows c ->
    heights_for_command_map spline m (F3 c) d2 = Err ValueError /\ commands_for_height_map spline m (F3 c) d2 = Err ValueError.
  Proof.
    intros H. unfold heights_for_command_map, commands_for_height_map. cbn [as_cube bind].
    destruct (Z.eqb_spec (nr m) (c_cols c)) as [E|E]; cbn [guard bind]; [|split; reflexivity].
    destruct (Z.eqb_spec (nc m) (c_rows c)) as [F|F]; cbn [guard bind]; [|split; reflexivity]. lia.
  Qed.
  Lemma rejects_vec c d2 m : (forall v, d2 <> F1 v) ->
    heights_for_command_map spline m (F3 c) d2 = Err ValueError /\ commands_for_height_map spline m (F3 c) d2 = Err ValueError.
  Proof.
    intros H. unfold heights_for_command_map, commands_for_height_map. cbn [as_cube bind].
    destruct (Z.eqb (nr m) (c_cols c)); cbn [guard bind]; [|split; reflexivity].
    destruct (Z.eqb (nc m) (c_rows c)); cbn [guard bind]; [|split; reflexivity].
    destruct d2; try (split; reflexivity). exfalso. eapply H. reflexivity.
  Qed.
  Lemma rejects_repeat c v m : ~ NoDup v ->
    heights_for_command_map spline m (F3 c) (F1 v) = Err ValueError /\ commands_for_height_map spline m (F3 c) (F1 v) = Err ValueError.
  Proof.
    intros H. unfold heights_for_command_map, commands_for_height_map. cbn [as_cube as_vector bind].
    destruct (Z.eqb (nr m) (c_cols c)); cbn [guard bind]; [|split; reflexivity].
    destruct (Z.eqb (nc m) (c_rows c)); cbn [guard bind]; [|split; reflexivity].
    rewrite (proj2 (verify_unique_spec v) H). split; reflexivity.
  Qed.
  (** Fewer than four calibration commands, or a cube of another depth. *)
  Lemma rejects_few c v n m : 0 < n -> nr m = n -> nc m = n -> c_rows c = n -> c_cols c = n -> ascending v -> 0 <= c_n c ->
    len v < 4 \/ len v <> c_n c ->
    heights_for_command_map spline m (F3 c) (F1 v) = Err ValueError /\ commands_for_height_map spline m (F3 c) (F1 v) = Err ValueError.
  Proof.
    intros Hp Rm Cm Rc Cc S Np H.
    assert (G : forall f : Z -> Z -> res R, (forall i j, 0 <= i < n -> 0 <= j < n -> f i j = Err ValueError) -> fill2 0%R n n f = Err ValueError).
    { intros f F. unfold fill2. destruct (first_err (col_major n n) f) as [e|] eqn:E.
      - apply first_err_some in E as (i & j & I & E). apply in_col_major in I as [Hi Hj]. rewrite F in E by auto. congruence.
      - exfalso. pose proof (proj1 (first_err_none f _) E 0 0) as K. rewrite F in K by lia.
        specialize (K (proj2 (in_col_major n n 0 0) ltac:(lia))). destruct K; discriminate. }
    assert (L : forall i j, len (map (fun k => at3 c k i j) (zrange (c_n c))) = c_n c) by (intros; rewrite len_map_zrange; lia).
    assert (K : forall i j x, cubic_interp spline v (map (fun k => at3 c k i j) (zrange (c_n c))) x = Err ValueError /\
      cubic_interp spline (map (fun k => at3 c k i j) (zrange (c_n c))) v x = Err ValueError).
    { intros i j x. specialize (L i j). unfold cubic_interp. set (hs := map _ _) in *. rewrite (Nat.eqb_sym (length hs)).
      destruct (Nat.eqb_spec (length v) (length hs)) as [E|E]; cbn [guard bind]; [|split; reflexivity].
      rewrite <- E. destruct (Nat.leb_spec 4 (length v)) as [E'|E']; cbn [guard bind]; [|split; reflexivity]. unfold len in *. lia. }
    unfold heights_for_command_map, commands_for_height_map. cbn [as_cube as_vector bind].
    rewrite (proj2 (Z.eqb_eq (nr m) (c_cols c))), (proj2 (Z.eqb_eq (nc m) (c_rows c))) by lia. cbn [guard bind].
    rewrite (proj2 (proj1 (verify_unique_spec v))) by (apply ascending_nodup; auto). cbn [bind].
    rewrite presorted_complete by (apply ascending_le; auto). cbn [bind]. rewrite Rm, Cm.
    split; apply G; intros i j Hi Hj; rewrite profile_ok by lia; cbn [bind]; apply K.
  Qed.
End Rej.
