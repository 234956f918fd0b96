(** C89: gain maps for arbitrary calibration data. *)
From Coq Require Import ZArith Bool List Reals Lra Lia.
From Verif.Base Require Import Py Arr.
From Verif.Model Require Import Fits GainMap.
From Verif.Spec Require Import GainMapSpec.
From Verif.Proofs Require Import GainMapP GainLineP.
Import ListNotations.
Open Scope Z_scope.

(** The gain at a command lies on the line through the mean slopes on either side of it; beyond the first and last
    midway commands that line is the one of the first or last interval. *)
Theorem C89_gain_value : forall v c cmd n, calibration v c n n -> 3 <= len v -> nr cmd = n -> nc cmd = n ->
  exists out, compute_gainmap cmd (F3 c) (F1 v) = Ok out /\ nr out = n /\ nc out = n /\
   forall i j k, 0 <= i < n -> 0 <= j < n -> in_interval v k (at2 cmd i j) ->
    at2 out i j = Some (line_through (mid_command v k) (mean_slope v c i j k)
                         (mid_command v (k + 1)) (mean_slope v c i j (k + 1)) (at2 cmd i j)).
Proof. exact gainmap_line. Qed.
Print Assumptions C89_gain_value.
Theorem C89_every_command_covered : forall v x, 3 <= len v -> exists k, in_interval v k x.
Proof. exact interval_exists. Qed.
Print Assumptions C89_every_command_covered.
Theorem C89_rejects : forall cmd cubeFile vecFile,
  (forall v, vecFile = F1 v -> ~ NoDup v \/ len v = 0) \/
  (exists v, vecFile = F1 v /\ forall c, cubeFile = F3 c -> c_n c <> len v \/ nr cmd <> c_cols c \/ nc cmd <> c_rows c) ->
  compute_gainmap cmd cubeFile vecFile = Err ValueError.
Proof. exact gainmap_rejects. Qed.
Print Assumptions C89_rejects.
(** Two calibration commands give one mean slope per actuator, and no gain: every entry of the map is not a number. *)
Theorem C89_two_commands : forall v c cmd n, calibration v c n n -> len v = 2 -> nr cmd = n -> nc cmd = n ->
  exists out, compute_gainmap cmd (F3 c) (F1 v) = Ok out /\ nr out = n /\ nc out = n /\
   forall i j, 0 <= i < n -> 0 <= j < n -> at2 out i j = None.
Proof. exact gainmap_two. Qed.
Print Assumptions C89_two_commands.
(** A single one is refused, by the exception of an index. *)
Theorem C89_one_command : forall v c cmd n, calibration v c n n -> len v = 1 -> 0 < n -> nr cmd = n -> nc cmd = n ->
  compute_gainmap cmd (F3 c) (F1 v) = Err IndexError.
Proof. exact gainmap_one. Qed.
Print Assumptions C89_one_command.
Example C89_few_example : calibration [0; 1]%R (Cube 2 2 2 (fun k _ _ => IZR k)) 2 2 /\ len [0; 1]%R = 2 /\ calibration [5]%R (Cube 1 2 2 (fun k _ _ => IZR k)) 2 2 /\ len [5]%R = 1.
Proof.
  split; [|split; [reflexivity|split; [|reflexivity]]]; (split; [|repeat split]); unfold ascending;
    repeat (constructor; [|repeat (constructor; [lra|]); constructor]); constructor.
Qed.

(** A cubic actuator: commands 0, 1, 2, 4 with heights x^3. At command 1.25 the gain is between the mean slopes 7
    (around 1.5) and 1 (around 0.5). *)
Definition cubic_v : list R := [0; 1; 2; 4]%R.
Definition cubic_c : cube := Cube 4 2 2 (fun k _ _ => nthR cubic_v k ^ 3)%R.
Example C89_example : calibration cubic_v cubic_c 2 2 /\ 3 <= len cubic_v /\ in_interval cubic_v 0 (5 / 4) /\
  exists out, compute_gainmap (afull 2 2 (5 / 4)%R) (F3 cubic_c) (F1 cubic_v) = Ok out /\ at2 out 1 0 = Some (11 / 2)%R.
Proof.
  assert (Cal : calibration cubic_v cubic_c 2 2).
  { split; [|repeat split]. unfold ascending, cubic_v. repeat (constructor; [|repeat (constructor; [lra|]); constructor]). constructor. }
  assert (I : in_interval cubic_v 0 (5 / 4)).
  { split; [cbn; lia|]. split; [left; reflexivity|right]. unfold mid_command, command, cubic_v, nthR. cbn. change (Pos.to_nat 1) with 1%nat. change (Pos.to_nat 2) with 2%nat. cbn. lra. }
  split; [exact Cal|]. split; [cbn; lia|]. split; [exact I|].
  destruct (C89_gain_value cubic_v cubic_c (afull 2 2 (5 / 4)%R) 2 Cal ltac:(cbn; lia) eq_refl eq_refl) as (out & E & _ & _ & V).
  exists out. split; [exact E|]. rewrite (V 1 0 0) by (lia || exact I). f_equal.
  unfold line_through, mean_slope, mid_command, height, command, cubic_c, cubic_v, afull, nthR. cbn. change (Pos.to_nat 1) with 1%nat. change (Pos.to_nat 2) with 2%nat. cbn. field.
Qed.
