(** Probes as superpositions of sinusoids. *)
From Coq Require Import ZArith Bool List Reals Lra Lia.
From Coquelicot Require Import Coquelicot.
From Verif.Base Require Import Py Arr Vec Sums.
From Verif.Model Require Import Fresnel Dm.
From Verif.Spec Require Import ProbeSpec.
From Verif.Proofs Require Import FresnelP DmP.
Open Scope R_scope.

Lemma sin_integral A B p q : p < q ->
  is_RInt (fun t => sin (A + B * t)) p q
    ((q - p) * np_sinc (B * (q - p) / (2 * PI)) * sin (A + B * ((p + q) / 2))).
Proof.
  intros Hpq. pose proof PI_RGT_0 as HP. unfold np_sinc. destruct (Req_EM_T (B * (q - p) / (2 * PI)) 0) as [E|E].
  - assert (HB : B = 0).
    { apply (Rmult_eq_reg_r ((q - p) / (2 * PI))).
      - rewrite Rmult_0_l, <- E. field. lra.
      - apply Rgt_not_eq. apply Rdiv_lt_0_compat; lra. }
    subst B. apply (is_RInt_ext (V := R_NormedModule) (fun _ => sin A)).
    { intros t _. change (@eq R (sin A) (sin (A + 0 * t))). f_equal. ring. }
    replace ((q - p) * 1 * sin (A + 0 * ((p + q) / 2))) with (scal (q - p) (sin A)).
    + apply (is_RInt_const (V := R_NormedModule)).
    + change (@eq R ((q - p) * sin A) ((q - p) * 1 * sin (A + 0 * ((p + q) / 2)))).
      rewrite Rmult_0_l, Rplus_0_r. ring.
  - assert (HB : B <> 0). { intros ->. apply E. field. lra. }
    replace ((q - p) * (sin (PI * (B * (q - p) / (2 * PI))) / (PI * (B * (q - p) / (2 * PI)))) * sin (A + B * ((p + q) / 2)))
      with (minus (- cos (A + B * q) / B) (- cos (A + B * p) / B)).
    + apply (is_RInt_derive (V := R_CompleteNormedModule) (fun t => - cos (A + B * t) / B)).
      * intros t _. auto_derive; [auto|]. field. auto.
      * intros t _. apply (ex_derive_continuous (fun x => sin (A + B * x))). auto_derive. auto.
    + change (@eq R (- cos (A + B * q) / B - - cos (A + B * p) / B)
        ((q - p) * (sin (PI * (B * (q - p) / (2 * PI))) / (PI * (B * (q - p) / (2 * PI)))) * sin (A + B * ((p + q) / 2)))).
      replace (- cos (A + B * q) / B - - cos (A + B * p) / B) with ((cos (A + B * p) - cos (A + B * q)) / B) by (field; auto).
      rewrite form2.
      replace ((A + B * p - (A + B * q)) / 2) with (- (B * (q - p) / 2)) by field.
      replace ((A + B * p + (A + B * q)) / 2) with (A + B * ((p + q) / 2)) by field.
      rewrite sin_neg. replace (PI * (B * (q - p) / (2 * PI))) with (B * (q - p) / 2) by (field; lra).
      field. split; lra.
Qed.

Lemma probe_integral nact dact xc yc cl h x0 x1 e0 e1 ph d :
  probe nact dact xc yc cl h x0 x1 e0 e1 ph = Ok d ->
  nr d = nact /\ nc d = nact /\ forall r c, in_arr d r c ->
    let x := act nact c - xc in let y := act nact r - yc in
    integral2 (fun xi eta => wave dact (2 * h / dact ^ 2) ph xi eta (turn_x cl x y) (turn_y cl x y))
      x0 x1 e0 e1 (at2 d r c).
Proof.
  intros H. apply probe_inv in H as (G1 & G2 & G3 & G4 & G5 & ->). cbn [nr nc at2].
  do 2 (split; [reflexivity|]). intros r c _. cbn zeta. unfold act.
  set (x := IZR c - (IZR nact - 1) / 2 - xc). set (y := IZR r - (IZR nact - 1) / 2 - yc).
  change (x * cos (cl * PI / 180) - y * sin (cl * PI / 180)) with (turn_x cl x y).
  change (x * sin (cl * PI / 180) + y * cos (cl * PI / 180)) with (turn_y cl x y).
  generalize (turn_x cl x y) (turn_y cl x y). clear x y. intros u v.
  pose proof PI_RGT_0 as HP.
  set (A := fun xi => 2 * PI * (u * xi) / dact + ph * PI / 180). set (B := 2 * PI * v / dact).
  exists (fun xi => 2 * h / dact ^ 2 * ((e1 - e0) * np_sinc (B * (e1 - e0) / (2 * PI)) * sin (A xi + B * ((e0 + e1) / 2)))).
  split.
  - intros xi. apply (is_RInt_ext (V := R_NormedModule) (fun t => scal (2 * h / dact ^ 2) (sin (A xi + B * t)))).
    { intros t _. change (@eq R (2 * h / dact ^ 2 * sin (A xi + B * t)) (wave dact (2 * h / dact ^ 2) ph xi t u v)).
      unfold wave, A, B. f_equal. f_equal. field. lra. }
    apply (is_RInt_scal (V := R_NormedModule) (fun t => sin (A xi + B * t)) e0 e1 (2 * h / dact ^ 2)).
    apply sin_integral; auto.
  - set (K := 2 * h / dact ^ 2 * ((e1 - e0) * np_sinc (B * (e1 - e0) / (2 * PI)))).
    set (A' := ph * PI / 180 + B * ((e0 + e1) / 2)). set (B' := 2 * PI * u / dact).
    apply (is_RInt_ext (V := R_NormedModule) (fun t => scal K (sin (A' + B' * t)))).
    { intros t _. change (@eq R (K * sin (A' + B' * t))
        (2 * h / dact ^ 2 * ((e1 - e0) * np_sinc (B * (e1 - e0) / (2 * PI)) * sin (A t + B * ((e0 + e1) / 2))))).
      replace (A t + B * ((e0 + e1) / 2)) with (A' + B' * t) by (unfold A, A', B'; field; lra). unfold K. ring. }
    replace (h * np_sinc (u / (dact / (x1 - x0))) * np_sinc (v / (dact / (e1 - e0))) /
       (dact / (x1 - x0) * (dact / (e1 - e0))) *
       (2 * sin (2 * PI * (u * ((x0 + x1) / 2) + v * ((e0 + e1) / 2)) / dact + ph * PI / 180)))
      with (scal K ((x1 - x0) * np_sinc (B' * (x1 - x0) / (2 * PI)) * sin (A' + B' * ((x0 + x1) / 2)))).
    { apply (is_RInt_scal (V := R_NormedModule) (fun t => sin (A' + B' * t)) x0 x1 K). apply sin_integral; auto. }
    change (@eq R (K * ((x1 - x0) * np_sinc (B' * (x1 - x0) / (2 * PI)) * sin (A' + B' * ((x0 + x1) / 2))))
      (h * np_sinc (u / (dact / (x1 - x0))) * np_sinc (v / (dact / (e1 - e0))) /
       (dact / (x1 - x0) * (dact / (e1 - e0))) *
       (2 * sin (2 * PI * (u * ((x0 + x1) / 2) + v * ((e0 + e1) / 2)) / dact + ph * PI / 180)))).
    replace (B' * (x1 - x0) / (2 * PI)) with (u / (dact / (x1 - x0))) by (unfold B'; field; lra).
    unfold K. replace (B * (e1 - e0) / (2 * PI)) with (v / (dact / (e1 - e0))) by (unfold B; field; lra).
    replace (A' + B' * ((x0 + x1) / 2)) with (2 * PI * (u * ((x0 + x1) / 2) + v * ((e0 + e1) / 2)) / dact + ph * PI / 180)
      by (unfold A', B', B; field; lra).
    field. lra.
Qed.

Lemma integral2_unique f x0 x1 e0 e1 v w : integral2 f x0 x1 e0 e1 v -> integral2 f x0 x1 e0 e1 w -> v = w.
Proof.
  intros (g & G1 & G2) (k & K1 & K2).
  assert (E : forall x, g x = k x).
  { intros x. apply is_RInt_unique in G1 as A || idtac. rewrite <- (is_RInt_unique _ _ _ _ (G1 x)). apply is_RInt_unique, K1. }
  rewrite <- (is_RInt_unique _ _ _ _ G2). apply is_RInt_unique.
  apply (is_RInt_ext (V := R_NormedModule) k); [|exact K2]. intros x _. symmetry. apply E.
Qed.

Lemma sine_wave nact dact amp ph fx fy : (0 < nact)%Z -> 0 < dact -> 0 < amp ->
  exists d, sine nact dact amp ph fx fy = Ok d /\ nr d = nact /\ nc d = nact /\
    forall r c, in_arr d r c -> at2 d r c = wave dact amp ph fx fy (act nact c) (act nact r).
Proof.
  intros H1 H2 H3. destruct (sine_ok nact dact amp ph fx fy H1 H2 H3) as (d & E & N1 & N2).
  exists d. split; [exact E|]. do 2 (split; [assumption|]). intros r c _.
  apply sine_inv in E as (_ & _ & _ & ->). reflexivity.
Qed.
Lemma turn_0_x x y : turn_x 0 x y = x.
Proof. unfold turn_x. replace (0 * PI / 180) with 0 by field. rewrite cos_0, sin_0. ring. Qed.
Lemma turn_0_y x y : turn_y 0 x y = y.
Proof. unfold turn_y. replace (0 * PI / 180) with 0 by field. rewrite cos_0, sin_0. ring. Qed.
(** A centred probe superposes the commands that [sine] returns. *)
Lemma probe_of_sines nact dact h x0 x1 e0 e1 ph d :
  probe nact dact 0 0 0 h x0 x1 e0 e1 ph = Ok d ->
  exists S : R -> R -> arr R,
    (forall xi eta, sine nact dact (2 * h / dact ^ 2) ph xi eta = Ok (S xi eta)) /\
    forall r c, in_arr d r c -> integral2 (fun xi eta => at2 (S xi eta) r c) x0 x1 e0 e1 (at2 d r c).
Proof.
  intros H. pose proof (probe_integral _ _ _ _ _ _ _ _ _ _ _ _ H) as (N1 & N2 & V).
  apply probe_inv in H as (G1 & G2 & G3 & _ & _ & _).
  assert (Ga : 0 < 2 * h / dact ^ 2) by (apply Rdiv_lt_0_compat; [lra|apply pow_lt; auto]).
  exists (fun xi eta => Arr nact nact (fun r c => wave dact (2 * h / dact ^ 2) ph xi eta (act nact c) (act nact r))).
  split.
  - intros xi eta. destruct (sine_ok nact dact (2 * h / dact ^ 2) ph xi eta G1 G2 Ga) as (s & E & _).
    rewrite E. apply sine_inv in E as (_ & _ & _ & ->). reflexivity.
  - intros r c Hrc. specialize (V r c Hrc). cbn zeta in V. cbn [at2].
    rewrite turn_0_x, turn_0_y, !Rminus_0_r in V. exact V.
Qed.

Lemma probe_rejects nact dact xc yc cl h x0 x1 e0 e1 ph :
  ((nact <= 0)%Z \/ dact <= 0 \/ h <= 0 -> probe nact dact xc yc cl h x0 x1 e0 e1 ph = Err TypeError) /\
  ((0 < nact)%Z -> 0 < dact -> 0 < h -> x1 <= x0 \/ e1 <= e0 ->
     probe nact dact xc yc cl h x0 x1 e0 e1 ph = Err ValueError).
Proof.
  unfold probe. split.
  - intros H. destruct (Z.ltb_spec 0 nact); cbn [guard bind]; [|reflexivity].
    unfold pos_real. destruct (Rlt_dec 0 dact); cbn [guard bind]; [|reflexivity].
    destruct (Rlt_dec 0 h); cbn [guard bind]; [|reflexivity]. exfalso. lia || (destruct H as [H|[H|H]]; [lia|lra|lra]).
  - intros H1 H2 H3 H. rewrite guard_true by (apply Z.ltb_lt; auto).
    do 2 (rewrite guard_true by (apply pos_real_iff; auto)).
    destruct (Rle_dec x1 x0); cbn [guard bind]; [reflexivity|].
    destruct (Rle_dec e1 e0); cbn [guard bind]; [reflexivity|]. exfalso. lra.
Qed.
Lemma sine_rejects nact dact amp ph fx fy : (nact <= 0)%Z \/ dact <= 0 \/ amp <= 0 ->
  sine nact dact amp ph fx fy = Err TypeError.
Proof.
  intros H. unfold sine. destruct (Z.ltb_spec 0 nact); cbn [guard bind]; [|reflexivity].
  unfold pos_real. destruct (Rlt_dec 0 dact); cbn [guard bind]; [|reflexivity].
  destruct (Rlt_dec 0 amp); cbn [guard bind]; [|reflexivity]. exfalso. destruct H as [H|[H|H]]; [lia|lra|lra].
Qed.
Lemma probe_above_height : exists d, probe 1 1 0 0 0 1 0 1 0 1 90 = Ok d /\ at2 d 0%Z 0%Z = 2.
Proof.
  destruct (probe_defined 1 1 0 0 0 1 0 1 0 1 90) as [d E]; try lra; try lia.
  exists d. split; [exact E|]. rewrite (probe_peak _ _ _ _ _ _ _ _ _ _ _ _ _ E); lra.
Qed.
