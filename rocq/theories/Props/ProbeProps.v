(** Property C88 (and values for C24): sine and probe commands as superpositions of sinusoids. *)
From Coq Require Import ZArith Bool List Reals Lra Lia.
From Coquelicot Require Import Coquelicot.
From Verif.Base Require Import Py Arr.
From Verif.Model Require Import Dm.
From Verif.Spec Require Import ProbeSpec.
From Verif.Proofs Require Import DmP ProbeP.
Open Scope R_scope.

(** C24. The height of every actuator of a sine command, and what is refused. *)
Theorem C24_sine_value : forall nact dact amp ph fx fy, (0 < nact)%Z -> 0 < dact -> 0 < amp ->
  exists d, sine nact dact amp ph fx fy = Ok d /\ nr d = nact /\ nc d = nact /\
    forall r c, in_arr d r c -> at2 d r c = wave dact amp ph fx fy (act nact c) (act nact r).
Proof. exact sine_wave. Qed.
Print Assumptions C24_sine_value.
Theorem C24_sine_rejects : forall nact dact amp ph fx fy, (nact <= 0)%Z \/ dact <= 0 \/ amp <= 0 ->
  sine nact dact amp ph fx fy = Err TypeError.
Proof. exact sine_rejects. Qed.
Print Assumptions C24_sine_rejects.
Theorem C24_probe_defined : forall nact dact xc yc cl h x0 x1 e0 e1 ph,
  (0 < nact)%Z -> 0 < dact -> 0 < h -> x0 < x1 -> e0 < e1 ->
  exists d, probe nact dact xc yc cl h x0 x1 e0 e1 ph = Ok d.
Proof. exact probe_defined. Qed.
Print Assumptions C24_probe_defined.
Theorem C24_probe_rejects : forall nact dact xc yc cl h x0 x1 e0 e1 ph,
  ((nact <= 0)%Z \/ dact <= 0 \/ h <= 0 -> probe nact dact xc yc cl h x0 x1 e0 e1 ph = Err TypeError) /\
  ((0 < nact)%Z -> 0 < dact -> 0 < h -> x1 <= x0 \/ e1 <= e0 ->
     probe nact dact xc yc cl h x0 x1 e0 e1 ph = Err ValueError).
Proof. exact probe_rejects. Qed.
Print Assumptions C24_probe_rejects.

(** C88. The height of every actuator of a probe is the integral, over the rectangle
    [ximin,ximax] x [etamin,etamax] of spatial frequencies, of sinusoids of amplitude 2 height / dact^2 and the
    given phase, taken at the actuator's position relative to the probe centre, turned by the clocking. *)
Theorem C88_superposition : forall nact dact xc yc cl h x0 x1 e0 e1 ph d,
  probe nact dact xc yc cl h x0 x1 e0 e1 ph = Ok d ->
  nr d = nact /\ nc d = nact /\ forall r c, in_arr d r c ->
    let x := act nact c - xc in let y := act nact r - yc in
    integral2 (fun xi eta => wave dact (2 * h / dact ^ 2) ph xi eta (turn_x cl x y) (turn_y cl x y))
      x0 x1 e0 e1 (at2 d r c).
Proof. exact probe_integral. Qed.
Print Assumptions C88_superposition.
(** C88. The integral determines the height. *)
Theorem C88_integral_unique : forall f x0 x1 e0 e1 v w,
  integral2 f x0 x1 e0 e1 v -> integral2 f x0 x1 e0 e1 w -> v = w.
Proof. exact integral2_unique. Qed.
Print Assumptions C88_integral_unique.
(** C88. A centred, unclocked probe is the superposition of the commands that [sine] returns. *)
Theorem C88_of_sine_commands : forall nact dact h x0 x1 e0 e1 ph d,
  probe nact dact 0 0 0 h x0 x1 e0 e1 ph = Ok d ->
  exists S : R -> R -> arr R,
    (forall xi eta, sine nact dact (2 * h / dact ^ 2) ph xi eta = Ok (S xi eta)) /\
    forall r c, in_arr d r c -> integral2 (fun xi eta => at2 (S xi eta) r c) x0 x1 e0 e1 (at2 d r c).
Proof. exact probe_of_sines. Qed.
Print Assumptions C88_of_sine_commands.
(** The docstring also calls [height] the height of the peak, which the shape may not reach: a probe of height 1
    can have an actuator at 2. *)
Theorem C88_peak_height_refuted : exists d, probe 1 1 0 0 0 1 0 1 0 1 90 = Ok d /\ at2 d 0%Z 0%Z = 2.
Proof. exact probe_above_height. Qed.
Print Assumptions C88_peak_height_refuted.
Example C88_ex : exists d, probe 48 (463 / 10) 1 (-2) 30 (1 / 10) 2 20 (-20) 20 90 = Ok d.
Proof. apply probe_defined; lra || lia. Qed.
