(** C86, and C40 and C61 with the spline SciPy computes: conversion between command and height maps. *)
From Coq Require Import ZArith Bool List Reals Lra Lia Sorted.
From Verif.Base Require Import Py Arr.
From Verif.Model Require Import Fits GainMap.
From Verif.Spec Require Import GainMapSpec SplineSpec.
From Verif.Proofs Require Import GainMapP SplineP GainSpline GainSplineEx.
Import ListNotations.
Open Scope Z_scope.

(** ** C86 conversion of maps *)
(** Each height is the value, at the actuator's command, of the not-a-knot cubic spline through its calibration points. *)
Theorem C86_heights : forall spline, scipy_cubic spline -> forall v c n cmd, calibration v c n n -> 4 <= len v -> nr cmd = n -> nc cmd = n ->
  (forall i j, 0 <= i < n -> 0 <= j < n -> in_range v (at2 cmd i j)) ->
  exists h, heights_for_command_map spline cmd (F3 c) (F1 v) = Ok h /\ nr h = n /\ nc h = n /\
  forall i j, 0 <= i < n -> 0 <= j < n -> exists s, cubic_spline (points v c i j) s /\ at2 h i j = s (at2 cmd i j).
Proof. exact heights_spline. Qed.
Print Assumptions C86_heights.
Theorem C86_commands : forall spline, scipy_cubic spline -> forall v c n hm, calibration v c n n -> 4 <= len v -> nr hm = n -> nc hm = n ->
  (forall i j, 0 <= i < n -> 0 <= j < n -> heights_increase v c i j /\ height_reached v c i j (at2 hm i j)) ->
  exists o, commands_for_height_map spline hm (F3 c) (F1 v) = Ok o /\ nr o = n /\ nc o = n /\
  forall i j, 0 <= i < n -> 0 <= j < n -> exists s, cubic_spline (points_inv v c i j) s /\ at2 o i j = s (at2 hm i j).
Proof. exact commands_spline. Qed.
Print Assumptions C86_commands.
(** That spline is one function: the heights do not depend on how it is computed. *)
Theorem C86_determined : forall s1 s2 v c n cmd a b, scipy_cubic s1 -> scipy_cubic s2 -> calibration v c n n -> 4 <= len v ->
  nr cmd = n -> nc cmd = n -> heights_for_command_map s1 cmd (F3 c) (F1 v) = Ok a -> heights_for_command_map s2 cmd (F3 c) (F1 v) = Ok b -> aeq a b.
Proof. exact heights_determined. Qed.
Print Assumptions C86_determined.
(** An actuator whose height is a cubic polynomial of its command is converted exactly at every command in range. *)
Theorem C86_heights_exact : forall spline, scipy_cubic spline -> forall v c n cmd (p : Z -> Z -> cubic), calibration v c n n -> 4 <= len v ->
  nr cmd = n -> nc cmd = n ->
  (forall i j, 0 <= i < n -> 0 <= j < n -> in_range v (at2 cmd i j) /\
     forall k, 0 <= k < len v -> height c i j k = val (p i j) (command v k)) ->
  exists h, heights_for_command_map spline cmd (F3 c) (F1 v) = Ok h /\ nr h = n /\ nc h = n /\
  forall i j, 0 <= i < n -> 0 <= j < n -> at2 h i j = val (p i j) (at2 cmd i j).
Proof. exact heights_exact. Qed.
Print Assumptions C86_heights_exact.
Theorem C86_commands_exact : forall spline, scipy_cubic spline -> forall v c n hm (p : Z -> Z -> cubic), calibration v c n n -> 4 <= len v ->
  nr hm = n -> nc hm = n ->
  (forall i j, 0 <= i < n -> 0 <= j < n -> heights_distinct v c i j /\ height_reached v c i j (at2 hm i j) /\
     forall k, 0 <= k < len v -> command v k = val (p i j) (height c i j k)) ->
  exists o, commands_for_height_map spline hm (F3 c) (F1 v) = Ok o /\ nr o = n /\ nc o = n /\
  forall i j, 0 <= i < n -> 0 <= j < n -> at2 o i j = val (p i j) (at2 hm i j).
Proof. exact commands_exact. Qed.
Print Assumptions C86_commands_exact.
(** The conversions undo each other for actuators of constant gain, rising or falling. *)
Theorem C86_linear_round_trip : forall spline, scipy_cubic spline -> forall v c n cmd (g o : Z -> Z -> R), calibration v c n n -> 4 <= len v ->
  nr cmd = n -> nc cmd = n ->
  (forall i j, 0 <= i < n -> 0 <= j < n -> in_range v (at2 cmd i j) /\ g i j <> 0%R /\ linear_response v c i j (g i j) (o i j)) ->
  exists hm back, heights_for_command_map spline cmd (F3 c) (F1 v) = Ok hm /\
    (forall i j, 0 <= i < n -> 0 <= j < n -> at2 hm i j = (g i j * at2 cmd i j + o i j)%R) /\
    commands_for_height_map spline hm (F3 c) (F1 v) = Ok back /\ aeq back cmd.
Proof. exact linear_round_trip. Qed.
Print Assumptions C86_linear_round_trip.
(** They do not for every increasing actuator: heights 0, 2, 6, 12 at commands 0, 1, 2, 3, and command 3/2. *)
Theorem C86_not_inverse : forall spline, scipy_cubic spline -> exists hm back,
  heights_for_command_map spline half3 (F3 qc) (F1 qv) = Ok hm /\
  commands_for_height_map spline hm (F3 qc) (F1 qv) = Ok back /\ at2 back 0 0 <> at2 half3 0 0.
Proof. exact q_round_trip. Qed.
Print Assumptions C86_not_inverse.
(** No extrapolation: a map is converted exactly when every entry is in range, and a ValueError is raised otherwise. *)
Theorem C86_heights_range : forall spline v c n cmd, calibration v c n n -> 4 <= len v -> nr cmd = n -> nc cmd = n ->
  ((exists h, heights_for_command_map spline cmd (F3 c) (F1 v) = Ok h) <->
   forall i j, 0 <= i < n -> 0 <= j < n -> in_range v (at2 cmd i j)) /\
  (forall e, heights_for_command_map spline cmd (F3 c) (F1 v) = Err e -> e = ValueError).
Proof. exact heights_iff. Qed.
Print Assumptions C86_heights_range.
Theorem C86_commands_range : forall spline v c n hm, calibration v c n n -> 4 <= len v -> nr hm = n -> nc hm = n ->
  (forall i j, 0 <= i < n -> 0 <= j < n -> heights_distinct v c i j) ->
  ((exists o, commands_for_height_map spline hm (F3 c) (F1 v) = Ok o) <->
   forall i j, 0 <= i < n -> 0 <= j < n -> height_reached v c i j (at2 hm i j)) /\
  (forall e, commands_for_height_map spline hm (F3 c) (F1 v) = Err e -> e = ValueError).
Proof. exact commands_iff. Qed.
Print Assumptions C86_commands_range.
(** Refused: a cube that is not 3-D, a map that does not match it, a command file that is not 1-D or repeats a value, fewer than four
    commands, and a number of commands that differs from the number of slices. *)
Theorem C86_rejects : forall spline m,
  (forall d1 d2, (forall c, d1 <> F3 c) ->
     heights_for_command_map spline m d1 d2 = Err ValueError /\ commands_for_height_map spline m d1 d2 = Err ValueError) /\
  (forall c d2, nr m <> c_cols c \/ nc m <> c_rows c ->
     heights_for_command_map spline m (F3 c) d2 = Err ValueError /\ commands_for_height_map spline m (F3 c) d2 = Err ValueError) /\
  (forall c d2, (forall v, d2 <> F1 v) ->
     heights_for_command_map spline m (F3 c) d2 = Err ValueError /\ commands_for_height_map spline m (F3 c) d2 = Err ValueError) /\
  (forall c v, ~ NoDup v ->
     heights_for_command_map spline m (F3 c) (F1 v) = Err ValueError /\ commands_for_height_map spline m (F3 c) (F1 v) = Err ValueError) /\
  (forall c v n, 0 < n -> nr m = n -> nc m = n -> c_rows c = n -> c_cols c = n -> ascending v -> 0 <= c_n c -> len v < 4 \/ len v <> c_n c ->
     heights_for_command_map spline m (F3 c) (F1 v) = Err ValueError /\ commands_for_height_map spline m (F3 c) (F1 v) = Err ValueError).
Proof.
  intros spline m. split; [intros d1 d2; exact (rejects_cube spline d1 d2 m)|]. split; [intros c d2; exact (rejects_shape spline c d2 m)|].
  split; [intros c d2; exact (rejects_vec spline c d2 m)|]. split; [intros c v; exact (rejects_repeat spline c v m)|].
  intros c v n. exact (rejects_few spline c v n m).
Qed.
Print Assumptions C86_rejects.

(** ** C40 starting commands of actuators with constant gain *)
Theorem C40_constant_gain_partial : forall spline, scipy_cubic spline -> forall v c n flat delta (g o : Z -> Z -> R), calibration v c n n -> 4 <= len v ->
  nr flat = n -> nc flat = n -> nr delta = n -> nc delta = n ->
  (forall i j, 0 <= i < n -> 0 <= j < n -> in_range v (at2 flat i j) /\ (0 < g i j)%R /\ linear_response v c i j (g i j) (o i j)) ->
  exists s, starting_commands spline flat delta (F3 c) (F1 v) = Ok s /\ nr s = n /\ nc s = n /\
  forall i j, 0 <= i < n -> 0 <= j < n ->
    at2 s i j = clamp (command v 0) (command v (len v - 1)) (at2 flat i j + at2 delta i j / g i j).
Proof. exact starting_linear. Qed.
Print Assumptions C40_constant_gain_partial.

(** ** C61 transfer of a setting between calibration commands *)
Theorem C61_cubic_response_partial : forall spline, scipy_cubic spline -> forall v c n before after (p : Z -> Z -> cubic), calibration v c n n -> 4 <= len v ->
  nr before = n -> nc before = n -> nr after = n -> nc after = n ->
  (forall i j, 0 <= i < n -> 0 <= j < n -> in_range v (at2 before i j) /\ in_range v (at2 after i j) /\
     forall k, 0 <= k < len v -> height c i j k = val (p i j) (command v k)) ->
  exists o, delta_height_map spline before after (F3 c) (F1 v) = Ok o /\ nr o = n /\ nc o = n /\
  forall i j, 0 <= i < n -> 0 <= j < n -> at2 o i j = (val (p i j) (at2 after i j) - val (p i j) (at2 before i j))%R.
Proof. exact delta_cubic. Qed.
Print Assumptions C61_cubic_response_partial.
Theorem C61_constant_gain_partial : forall spline, scipy_cubic spline -> forall v c n flat hole delta (g o : Z -> Z -> R), calibration v c n n -> 4 <= len v ->
  nr flat = n -> nc flat = n -> nr hole = n -> nc hole = n ->
  (forall i j, 0 <= i < n -> 0 <= j < n -> in_range v (at2 flat i j) /\ in_range v (at2 hole i j) /\ (0 < g i j)%R /\
     linear_response v c i j (g i j) (o i j)) ->
  delta_height_map spline flat hole (F3 c) (F1 v) = Ok delta ->
  exists s, starting_commands spline flat delta (F3 c) (F1 v) = Ok s /\ aeq s hole.
Proof. exact transfer_linear. Qed.
Print Assumptions C61_constant_gain_partial.
(** Between calibration commands the transfer is not exact in general. *)
Theorem C61_between_refuted : forall spline, scipy_cubic spline -> exists delta s,
  delta_height_map spline (afull 1 1 0%R) half3 (F3 qc) (F1 qv) = Ok delta /\
  starting_commands spline (afull 1 1 0%R) delta (F3 qc) (F1 qv) = Ok s /\ at2 s 0 0 <> at2 half3 0 0.
Proof. exact q_transfer. Qed.
Print Assumptions C61_between_refuted.

(** ** The hypotheses are met *)
(** A function that computes the spline for every set of points. *)
Example C86_spline : scipy_cubic scipy_ref.
Proof. exact scipy_ref_ok. Qed.
Example C86_increasing : calibration qv qc 1 1 /\ 4 <= len qv /\ heights_increase qv qc 0 0 /\ in_range qv (3 / 2)%R /\
  (forall k, 0 <= k < len qv -> height qc 0 0 k = val fwd (command qv k)) /\
  height_reached qv qc 0 0 (15 / 4)%R /\ (forall k, 0 <= k < len qv -> command qv k = val bwd (height qc 0 0 k)).
Proof.
  split; [exact q_calibration|]. split; [cbn; lia|]. split; [apply q_increase|]. split; [exact half_range|]. split; [exact (q_fwd 0 0)|].
  split; [apply q_reached|exact (q_bwd 0 0)].
Qed.
(** A falling and a rising actuator of constant gain. *)
Example C86_constant_gain : calibration qv nc_ 1 1 /\ linear_response qv nc_ 0 0 (- 2)%R 7%R /\
  calibration qv pc_ 1 1 /\ linear_response qv pc_ 0 0 2%R 7%R /\ (-2 <> 0)%R /\ (0 < 2)%R.
Proof. destruct n_linear as [A B], p_linear as [C D]. split; [exact A|]. split; [exact B|]. split; [exact C|]. split; [exact D|]. lra. Qed.
