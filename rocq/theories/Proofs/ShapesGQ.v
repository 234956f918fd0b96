(** The antialiased shapes in binary64: range and refusals. *)
From Coq Require Import ZArith Reals Bool List Lia Lra.
From Flocq Require Import Core BinarySingleNaN.
From Verif.Base Require Import Py Arr Sums F64.
From Verif.Model Require Import ShapesF ShapesG.
From Verif.Spec Require Import ShapesFSpec ShapesGSpec RefuseSpec.
From Verif.Proofs Require Import F64P F64N ShapesFP ShapesFQ ShapesGP DarkHoleP RefuseP.
Import ListNotations.
Local Open Scope R_scope.
Local Notation neg := opposite.

Ltac open_guards H := repeat (apply guard_ok in H as [? H]).
Lemma ltb_pos n : (0 <? n)%Z = true -> (0 < n)%Z. Proof. apply Z.ltb_lt. Qed.

(** ** Results *)
Lemma ok_inj {A} (x y : A) : Ok x = Ok y -> x = y.
Proof. congruence. Qed.
Ltac ok_open H := apply ok_inj in H; match type of H with _ = ?y => subst y end.
Lemma unit_one : unit_f (fofZ 1).
Proof. destruct (fofZ_spec 1 ltac:(lia)) as [V F]. split; auto. rewrite V. lra. Qed.
Lemma circle_f_inv nx ny r xo yo ns d m : circle_f nx ny r xo yo ns d = Ok m ->
  nr m = ny /\ nc m = nx /\ (1 < nx)%Z /\ (0 < ny)%Z /\ (0 < ns)%Z /\ ~ not_positive r /\
  ((ns <= 2 ^ 26)%Z -> unit_pixels m).
Proof.
  intros H. unfold circle_f in H. apply guard_ok in H as [G1 H]. apply guard_ok in H as [G2 H]. apply guard_ok in H as [G3 H].
  apply guard_ok in H as [G4 H]. apply guard_ok in H as [G5 H]. cbv zeta in H. ok_open H.
  apply Z.ltb_lt in G1, G2, G4, G5. split; [reflexivity|]. split; [reflexivity|]. split; [auto|]. split; [auto|]. split; [auto|]. split.
  - unfold not_positive. apply negb_true_iff in G3. rewrite G3. discriminate.
  - intros Hn i j _. cbn [at2]. set (v := if flt _ _ then _ else _). change (unit_f (dark_f d v)). apply dark_unit. subst v.
    match goal with |- unit_f (if ?b then _ else _) => destruct b end; [split; [reflexivity|cbn; lra]|].
    match goal with |- unit_f (if ?b then _ else _) => destruct b end.
    + exact unit_one.
    + exact (gray_unit (fun x y => fle (rho_f x y) r) (xUp_f ns) ns (axis_f nx xo j) (axis_f ny yo i) ltac:(lia)).
Qed.
Lemma ellipse_f_unit M nx ny rx ry rot xo yo ns d m : ellipse_f M nx ny rx ry rot xo yo ns d = Ok m ->
  nr m = ny /\ nc m = nx /\ ((ns <= 2 ^ 26)%Z -> unit_pixels m).
Proof.
  intros H. unfold ellipse_f in H. do 5 (apply guard_ok in H as [? H]). cbv zeta in H. apply guard_ok in H as [? H].
  apply bind_ok in H as (ix & _ & H). apply bind_ok in H as (iy & _ & H). apply guard_ok in H as [? H]. ok_open H.
  split; [reflexivity|]. split; [reflexivity|]. intros Hn i j _. apply dark_unit, edge_unit.
  match goal with G : (0 <? ns)%Z = true |- _ => apply Z.ltb_lt in G end. lia.
Qed.
Lemma rectangle_f_unit M nx ny w h xo yo rot ns d m : rectangle_f M nx ny w h xo yo rot ns d = Ok m ->
  nr m = ny /\ nc m = nx /\ ((ns <= 2 ^ 26)%Z -> unit_pixels m).
Proof.
  intros H. unfold rectangle_f in H. do 5 (apply guard_ok in H as [? H]). cbv zeta in H. apply guard_ok in H as [? H]. ok_open H.
  split; [reflexivity|]. split; [reflexivity|]. intros Hn i j _. apply dark_unit, edge_unit.
  match goal with G : (0 <? ns)%Z = true |- _ => apply Z.ltb_lt in G end. lia.
Qed.
Lemma segments_f_unit M nSeg rIn rOut nx ny xo yo ao ar ns dT m : annular_segments_f M nSeg rIn rOut nx ny xo yo ao ar ns dT = Ok m ->
  nr m = ny /\ nc m = nx /\ ((ns <= 2 ^ 26)%Z -> unit_pixels m).
Proof.
  intros H. unfold annular_segments_f in H. do 8 (apply guard_ok in H as [? H]). cbv zeta in H. do 2 (apply guard_ok in H as [? H]). ok_open H.
  split; [reflexivity|]. split; [reflexivity|]. intros Hn i j _. apply edge_unit.
  match goal with G : (0 <? ns)%Z = true |- _ => apply Z.ltb_lt in G end. lia.
Qed.

(** ** Pupils *)
Definition below (m p : arr f64) : Prop := nr m = nr p /\ nc m = nc p /\ forall i j, in_arr p i j -> fval (at2 m i j) <= fval (at2 p i j).
Lemma below_refl p : below p p. Proof. repeat split; intros; lra. Qed.
Lemma below_trans a b c : below a b -> below b c -> below a c.
Proof.
  intros (A1 & A2 & A3) (B1 & B2 & B3). repeat split; try congruence. intros i j H. apply Rle_trans with (fval (at2 b i j)); auto.
  apply A3. unfold in_arr in *. rewrite B1, B2. exact H.
Qed.
Lemma prod_unit p s : nr s = nr p -> nc s = nc p -> unit_pixels p -> unit_pixels s ->
  unit_pixels (amap2 fmul p s) /\ below (amap2 fmul p s) p.
Proof.
  intros Er Ec Hp Hs. assert (K : forall i j, in_arr p i j -> unit_f (at2 p i j) /\ unit_f (at2 s i j)).
  { intros i j H. split; [apply Hp, H|apply Hs]. unfold in_arr in *. rewrite Er, Ec. exact H. }
  split.
  - intros i j H. destruct (K i j H) as [A C]. apply (mul_unit _ _ A C).
  - repeat split. intros i j H. destruct (K i j H) as [A C]. apply (mul_unit _ _ A C).
Qed.
Lemma strut_f_unit M nx ny xo yo dO w ns t m : strut_f M nx ny xo yo dO w ns t = Ok m ->
  nr m = ny /\ nc m = nx /\ ((ns <= 2 ^ 26)%Z -> unit_pixels m).
Proof. unfold strut_f. cbv zeta. apply rectangle_f_unit. Qed.
Lemma struts_f_unit M nx ny xo yo dO w ns l : (ns <= 2 ^ 26)%Z -> forall p m, nr p = ny -> nc p = nx -> unit_pixels p ->
  struts_f M nx ny xo yo dO w ns l p = Ok m -> unit_pixels m /\ below m p.
Proof.
  intros Hn. induction l as [|t l IH]; intros p m Er Ec U H; cbn [struts_f] in H.
  - ok_open H. split; [exact U|apply below_refl].
  - apply bind_ok in H as (s & Hs & H). destruct (strut_f_unit _ _ _ _ _ _ _ _ _ _ Hs) as (Rs & Cs & Us).
    destruct (prod_unit p s ltac:(congruence) ltac:(congruence) U (Us Hn)) as [U1 B1].
    destruct (IH (amap2 fmul p s) m Er Ec U1 H) as [U2 B2]. split; [exact U2|]. eapply below_trans; eauto.
Qed.
Lemma struts_f_mono M nx ny xo yo dO w ns l : (ns <= 2 ^ 26)%Z -> forall p p' m m', nr p = ny -> nc p = nx -> unit_pixels p -> unit_pixels p' ->
  below p' p -> struts_f M nx ny xo yo dO w ns l p = Ok m -> struts_f M nx ny xo yo dO w ns l p' = Ok m' -> below m' m.
Proof.
  intros Hn. induction l as [|t l IH]; intros p p' m m' Er Ec U U' Bl H H'; cbn [struts_f] in H, H'.
  - ok_open H. ok_open H'. exact Bl.
  - apply bind_ok in H as (s & Hs & H). rewrite Hs in H'. cbn [bind] in H'. destruct (strut_f_unit _ _ _ _ _ _ _ _ _ _ Hs) as (Rs & Cs & Us).
    destruct Bl as (B1 & B2 & B3).
    destruct (prod_unit p s ltac:(congruence) ltac:(congruence) U (Us Hn)) as [U1 _].
    destruct (prod_unit p' s ltac:(congruence) ltac:(congruence) U' (Us Hn)) as [U1' _].
    apply (IH (amap2 fmul p s) (amap2 fmul p' s) m m' Er Ec U1 U1'); auto. split; [exact B1|]. split; [exact B2|].
    intros i j Hij. change (in_arr p i j) in Hij. specialize (B3 i j Hij). cbn [at2 amap2].
    assert (P1 : unit_f (at2 p i j)) by (apply U, Hij).
    assert (P2 : unit_f (at2 p' i j)) by (apply U'; unfold in_arr in *; rewrite B1, B2; exact Hij).
    assert (P3 : unit_f (at2 s i j)) by (apply (Us Hn); unfold in_arr in *; rewrite Rs, Cs, <- Er, <- Ec; exact Hij).
    destruct P1 as [F1 I1], P2 as [F2 I2], P3 as [F3 I3].
    assert (W : forall v, unit_f v -> within 0 v) by (intros v [F I]; split; auto; rewrite Rabs_pos_eq; cbn; lra).
    destruct (fmul_within 0 0 (at2 p i j) (at2 s i j) ltac:(lia) (W _ (conj F1 I1)) (W _ (conj F3 I3))) as [V1 _].
    destruct (fmul_within 0 0 (at2 p' i j) (at2 s i j) ltac:(lia) (W _ (conj F2 I2)) (W _ (conj F3 I3))) as [V2 _].
    rewrite V1, V2. apply rnd_mono, Rmult_le_compat_r; lra.
Qed.
(** The pupil before the struts. *)
Definition pupil0 (nx ny : Z) (xo yo dI dO : f64) (ns : Z) : res (arr f64) :=
  do pupil <- circle_f nx ny (fdiv dO (fofZ 2)) xo yo ns false;
  if flt fzero dI then do c <- circle_f nx ny (fdiv dI (fofZ 2)) xo yo ns true; Ok (amap2 fmul pupil c) else Ok pupil.
Lemma pupil0_unit nx ny xo yo dI dO ns p : (ns <= 2 ^ 26)%Z -> pupil0 nx ny xo yo dI dO ns = Ok p ->
  nr p = ny /\ nc p = nx /\ unit_pixels p /\ exists c, circle_f nx ny (fdiv dO (fofZ 2)) xo yo ns false = Ok c /\ below p c /\
    forall d, flt fzero dI = true -> circle_f nx ny (fdiv dI (fofZ 2)) xo yo ns true = Ok d -> below p d.
Proof.
  intros Hn H. unfold pupil0 in H. apply bind_ok in H as (c & Hc & H).
  destruct (circle_f_inv _ _ _ _ _ _ _ _ Hc) as (Rc & Cc & _ & _ & _ & _ & Uc). specialize (Uc Hn).
  destruct (flt fzero dI) eqn:E.
  - apply bind_ok in H as (d & Hd & H). ok_open H.
    destruct (circle_f_inv _ _ _ _ _ _ _ _ Hd) as (Rd & Cd & _ & _ & _ & _ & Ud). specialize (Ud Hn).
    destruct (prod_unit c d ltac:(congruence) ltac:(congruence) Uc Ud) as [U Bl].
    split; [exact Rc|]. split; [exact Cc|]. split; [exact U|]. exists c. split; [exact Hc|]. split; [exact Bl|].
    intros d' _ Hd'. rewrite Hd in Hd'. injection Hd' as <-. split; [cbn; congruence|]. split; [cbn; congruence|].
    intros i j Hij. cbn [at2 amap2]. apply (mul_unit (at2 c i j) (at2 d i j)); [apply Uc|apply Ud, Hij].
    unfold in_arr in *. rewrite Rc, Cc, <- Rd, <- Cd. exact Hij.
  - ok_open H. split; [exact Rc|]. split; [exact Cc|]. split; [exact Uc|]. exists c. split; [exact Hc|]. split; [apply below_refl|].
    discriminate.
Qed.
Lemma pupil_split M nx ny xo yo dI dO l w ns m : simple_pupil_f M nx ny xo yo dI dO l w ns = Ok m ->
  exists p, pupil0 nx ny xo yo dI dO ns = Ok p /\
    (if flt fzero w then struts_f M nx ny xo yo dO w ns l p else Ok p) = Ok m.
Proof.
  intros H. unfold simple_pupil_f in H. do 7 (apply guard_ok in H as [? H]).
  apply bind_ok in H as (c & Hc & H). apply bind_ok in H as (p & Hp & H). exists p. split.
  - unfold pupil0. rewrite Hc. exact Hp.
  - destruct l as [|t l]; cbn [andb] in H.
    + ok_open H. destruct (flt fzero w); reflexivity.
    + exact H.
Qed.
Lemma pupil_f_unit M nx ny xo yo dI dO l w ns m : (ns <= 2 ^ 26)%Z -> simple_pupil_f M nx ny xo yo dI dO l w ns = Ok m ->
  nr m = ny /\ nc m = nx /\ unit_pixels m /\
  exists c, circle_f nx ny (fdiv dO (fofZ 2)) xo yo ns false = Ok c /\
  (forall i j, in_arr m i j -> fval (at2 m i j) <= fval (at2 c i j)) /\
  (forall d, flt fzero dI = true -> circle_f nx ny (fdiv dI (fofZ 2)) xo yo ns true = Ok d ->
     forall i j, in_arr m i j -> fval (at2 m i j) <= fval (at2 d i j)).
Proof.
  intros Hn H. apply pupil_split in H as (p & Hp & H). destruct (pupil0_unit _ _ _ _ _ _ _ _ Hn Hp) as (Rp & Cp & Up & c & Hc & Bc & Bd).
  assert (K : unit_pixels m /\ below m p).
  { destruct (flt fzero w); [apply (struts_f_unit _ _ _ _ _ _ _ _ _ Hn _ _ Rp Cp Up H)|]. ok_open H. split; [auto|apply below_refl]. }
  destruct K as [Um Bm]. destruct (Bm) as (Rm & Cm & _). split; [congruence|]. split; [congruence|]. split; [exact Um|].
  exists c. split; [exact Hc|]. split.
  - destruct (below_trans _ _ _ Bm Bc) as (A1 & A2 & A3). intros i j Hij. apply A3. unfold in_arr in *. rewrite <- A1, <- A2. exact Hij.
  - intros d E Hd. destruct (below_trans _ _ _ Bm (Bd d E Hd)) as (A1 & A2 & A3). intros i j Hij. apply A3. unfold in_arr in *. rewrite <- A1, <- A2. exact Hij.
Qed.
Lemma pupil_f_more M nx ny xo yo dI dO l t w ns m m' : (ns <= 2 ^ 26)%Z -> simple_pupil_f M nx ny xo yo dI dO l w ns = Ok m ->
  simple_pupil_f M nx ny xo yo dI dO (t :: l) w ns = Ok m' ->
  forall i j, in_arr m i j -> fval (at2 m' i j) <= fval (at2 m i j).
Proof.
  intros Hn H H'. apply pupil_split in H as (p & Hp & H). apply pupil_split in H' as (p' & Hp' & H').
  rewrite Hp in Hp'. injection Hp' as <-. destruct (pupil0_unit _ _ _ _ _ _ _ _ Hn Hp) as (Rp & Cp & Up & _).
  assert (K : below m' m).
  { destruct (flt fzero w).
    - cbn [struts_f] in H'. apply bind_ok in H' as (s & Hs & H'). destruct (strut_f_unit _ _ _ _ _ _ _ _ _ _ Hs) as (Rs & Cs & Us).
      destruct (prod_unit p s ltac:(congruence) ltac:(congruence) Up (Us Hn)) as [U1 B1].
      apply (struts_f_mono M nx ny xo yo dO w ns l Hn p (amap2 fmul p s) m m'); auto.
    - ok_open H. ok_open H'. apply below_refl. }
  apply K.
Qed.

(** ** Refusals *)
Lemma not_positive_iff r : negb (fle r fzero) = true <-> ~ not_positive r.
Proof. unfold not_positive. rewrite negb_true_iff, <- not_true_iff_false. reflexivity. Qed.
Lemma negative_iff r : negb (flt r fzero) = true <-> ~ negative r.
Proof. unfold negative. rewrite negb_true_iff, <- not_true_iff_false. reflexivity. Qed.
Lemma circle_f_refused nx ny r xo yo ns d e : circle_f nx ny r xo yo ns d = Err e <-> refused (circle_needs_f nx ny r ns) e.
Proof.
  unfold circle_f, circle_needs_f. apply check_step; [apply Z.ltb_lt|]. intros _. apply check_step; [apply Z.ltb_lt|]. intros _.
  apply check_step; [apply not_positive_iff|]. intros _. apply check_step; [apply Z.ltb_lt|]. intros _.
  apply check_step; [apply Z.ltb_lt|]. intros _. cbv zeta. rewrite refused_nil. split; [discriminate|tauto].
Qed.
Lemma rectangle_f_refused M nx ny w h xo yo rot ns d e : rectangle_f M nx ny w h xo yo rot ns d = Err e <-> refused (rectangle_needs_f nx ny w h ns) e.
Proof.
  unfold rectangle_f, rectangle_needs_f. apply check_step; [apply Z.ltb_lt|]. intros _. apply check_step; [apply Z.ltb_lt|]. intros _.
  apply check_step; [apply not_positive_iff|]. intros _. apply check_step; [apply not_positive_iff|]. intros _. apply check_step; [apply Z.ltb_lt|]. intros _.
  cbv zeta. apply check_step; [apply Z.ltb_lt|]. intros _. rewrite refused_nil. split; [discriminate|tauto].
Qed.
Lemma segments_f_refused M nSeg rIn rOut nx ny xo yo ao ar ns dT e :
  annular_segments_f M nSeg rIn rOut nx ny xo yo ao ar ns dT = Err e <-> refused (segments_needs_f nSeg rIn rOut nx ny ao ar ns dT) e.
Proof.
  unfold annular_segments_f, segments_needs_f. apply check_step; [rewrite orb_true_iff, !Z.eqb_eq; reflexivity|]. intros _.
  apply check_step; [apply not_positive_iff|]. intros _. apply check_step; [apply not_positive_iff|]. intros _.
  apply check_step; [apply Z.ltb_lt|]. intros _. apply check_step; [apply Z.ltb_lt|]. intros _.
  apply check_step; [apply negative_iff|]. intros _. apply check_step; [apply Z.ltb_lt|]. intros _. apply check_step; [apply negative_iff|]. intros _.
  cbv zeta. apply check_step; [apply Z.ltb_lt|]. intros _. apply check_step; [reflexivity|]. intros _. rewrite refused_nil. split; [discriminate|tauto].
Qed.
Lemma feq_zero p : feq p fzero = true <-> is_zero p.
Proof.
  split.
  - destruct p as [s|s| |s m e H]; intros E; [eexists; reflexivity|destruct s; discriminate|discriminate|destruct s; discriminate].
  - intros [s ->]. destruct s; reflexivity.
Qed.
Lemma inv_pow2_step {A} M r (K : f64 -> res A) rest e : (forall ix, inv_pow2 M r = Ok ix -> (K ix = Err e <-> refused rest e)) ->
  bind (inv_pow2 M r) K = Err e <-> refused (radius_needs M r ++ rest) e.
Proof.
  intros H. unfold inv_pow2, radius_needs in *. cbn [app]. rewrite !refused_iff. destruct (lpow2 M r) as [p|] eqn:E.
  - unfold guard in *. destruct (feq p fzero) eqn:Z; cbn [negb bind] in *.
    + apply feq_zero in Z. split.
      * intros [= <-]. right. split; [congruence|]. left. split; auto. intros Q. exact (Q p eq_refl Z).
      * intros [[Q _]|[_ [[_ ->]|[Q _]]]]; auto; [exfalso; apply Q; congruence|exfalso; exact (Q p eq_refl Z)].
    + rewrite (H _ eq_refl). split.
      * intros Q. right. split; [congruence|]. right. split; auto. intros p' [= <-] W. apply feq_zero in W. congruence.
      * intros [[Q _]|[_ [[Q _]|[_ Q]]]]; auto; exfalso; [apply Q; congruence|]. apply Q. intros p' [= <-] W. apply feq_zero in W. congruence.
  - cbn [bind]. split.
    + intros [= <-]. left. auto.
    + intros [[_ ->]|[Q _]]; auto. congruence.
Qed.
Lemma ellipse_f_refused M nx ny rx ry rot xo yo ns d e : ellipse_f M nx ny rx ry rot xo yo ns d = Err e <-> refused (ellipse_needs_f M nx ny rx ry ns) e.
Proof.
  unfold ellipse_f, ellipse_needs_f. apply check_step; [apply Z.ltb_lt|]. intros _. apply check_step; [apply Z.ltb_lt|]. intros _.
  apply check_step; [apply not_positive_iff|]. intros _. apply check_step; [apply not_positive_iff|]. intros _. apply check_step; [apply Z.ltb_lt|]. intros _.
  cbv zeta. apply check_step; [apply Z.ltb_lt|]. intros _. apply inv_pow2_step. intros ix _. apply inv_pow2_step. intros iy _.
  apply check_step; [apply Z.ltb_lt|]. intros _. rewrite refused_nil. split; [discriminate|tauto].
Qed.
Lemma circle_case nx ny r xo yo ns d : (0 < nx)%Z -> (0 < ny)%Z -> (0 < ns)%Z ->
  (not_positive r /\ circle_f nx ny r xo yo ns d = Err TypeError) \/
  (~ not_positive r /\ ~ (1 < nx)%Z /\ circle_f nx ny r xo yo ns d = Err IndexError) \/
  (~ not_positive r /\ (1 < nx)%Z /\ exists c, circle_f nx ny r xo yo ns d = Ok c).
Proof.
  intros Hx Hy Hn. unfold circle_f, not_positive. rewrite (proj2 (Z.ltb_lt 0 nx) Hx), (proj2 (Z.ltb_lt 0 ny) Hy), (proj2 (Z.ltb_lt 0 ns) Hn).
  cbn [guard bind]. destruct (fle r fzero) eqn:E; cbn [negb guard bind]; [left; auto|right].
  destruct (Z.ltb_spec 1 nx) as [L|L]; cbn [guard bind]; [right; repeat split; auto; try discriminate; eexists; reflexivity|left; repeat split; auto; try discriminate; lia].
Qed.
Lemma rectangle_case M nx ny w h xo yo rot ns d : (1 < nx)%Z -> (0 < ny)%Z -> (0 < ns)%Z -> ~ not_positive h ->
  (not_positive w /\ rectangle_f M nx ny w h xo yo rot ns d = Err TypeError) \/
  (~ not_positive w /\ exists c, rectangle_f M nx ny w h xo yo rot ns d = Ok c).
Proof.
  intros Hx Hy Hn Hh. unfold rectangle_f. apply not_positive_iff in Hh. unfold not_positive.
  rewrite (proj2 (Z.ltb_lt 0 nx) ltac:(lia)), (proj2 (Z.ltb_lt 0 ny) Hy), (proj2 (Z.ltb_lt 0 ns) Hn), (proj2 (Z.ltb_lt 1 nx) Hx), Hh.
  cbn [guard bind]. destruct (fle w fzero) eqn:E; cbn [negb guard bind]; [left; auto|right]. cbv zeta. split; [discriminate|eexists; reflexivity].
Qed.
Lemma flt_pos w : flt fzero w = true -> ~ not_positive w.
Proof.
  unfold not_positive, flt, fle, Bltb, Bleb, SpecFloat.SFltb, SpecFloat.SFleb. destruct w as [s|s| |s m e H]; try discriminate; destruct s; discriminate.
Qed.
Lemma struts_refused M nx ny xo yo dO w ns l p e : (1 < nx)%Z -> (0 < ny)%Z -> (0 < ns)%Z -> flt fzero w = true ->
  struts_f M nx ny xo yo dO w ns l p = Err e <-> (l <> [] /\ not_positive (fmul f06 dO)) /\ e = TypeError.
Proof.
  intros Hx Hy Hn Hw. revert p. induction l as [|t l IH]; intros p; cbn [struts_f].
  - split; [discriminate|intros [[N _] _]; congruence].
  - unfold strut_f at 1. cbv zeta. destruct (rectangle_case M nx ny (fmul f06 dO) w
      (fadd xo (fdiv (fmul (lcos M (fdiv (fmul t fpi) (fofZ 180))) (fmul f06 dO)) (fofZ 2)))
      (fadd yo (fdiv (fmul (lsin M (fdiv (fmul t fpi) (fofZ 180))) (fmul f06 dO)) (fofZ 2))) t ns true Hx Hy Hn (flt_pos w Hw)) as [[Q ->]|[Q [c ->]]]; cbn [bind].
    + split; [intros [= <-]; split; [split; [discriminate|exact Q]|reflexivity]|intros [_ ->]; reflexivity].
    + rewrite IH. split; intros [[_ P] _]; contradiction.
Qed.
Lemma pupil_f_refused M nx ny xo yo dI dO l w ns e :
  simple_pupil_f M nx ny xo yo dI dO l w ns = Err e <-> refused (pupil_needs_f nx ny dI dO l w ns) e.
Proof.
  unfold simple_pupil_f, pupil_needs_f. apply check_step; [apply Z.ltb_lt|]. intros Hx. apply check_step; [apply Z.ltb_lt|]. intros Hy.
  apply check_step; [apply negative_iff|]. intros _. apply check_step; [apply not_positive_iff|]. intros _.
  apply check_step; [apply negative_iff|]. intros _. apply check_step; [apply Z.ltb_lt|]. intros Hn.
  apply check_step; [rewrite negb_true_iff, not_true_iff_false; reflexivity|]. intros _.
  rewrite !refused_iff, refused_nil.
  destruct (circle_case nx ny (fdiv dO (fofZ 2)) xo yo ns false Hx Hy Hn) as [[Q ->]|[(Q & L & ->)|(Q & L & c & ->)]]; cbn [bind].
  - split; [intros [= <-]; left; auto|intros [[_ ->]|[P _]]; [reflexivity|contradiction]].
  - split; [intros [= <-]; right; split; [auto|left; auto]|intros [[P _]|[_ [[_ ->]|[P _]]]]; [contradiction|reflexivity|contradiction]].
  - assert (S : forall p, (if match l with [] => false | _ => true end && flt fzero w then struts_f M nx ny xo yo dO w ns l p else Ok p) = Err e <->
      ~ (flt fzero w = true -> l <> [] -> ~ not_positive (fmul f06 dO)) /\ e = TypeError).
    { intros p. destruct (flt fzero w) eqn:E.
      - replace (match l with [] => false | _ => true end && true) with (match l with [] => false | _ => true end) by (destruct l; reflexivity).
        destruct l as [|t l].
        + split; [discriminate|]. intros [P _]. exfalso. apply P. intros _ K. congruence.
        + rewrite struts_refused by auto. unfold not_positive. destruct (fle (fmul f06 dO) fzero); split; intros [P ->]; (split; [|reflexivity]).
          * intros K. apply (K eq_refl); [discriminate|reflexivity].
          * split; [discriminate|reflexivity].
          * destruct P as [_ P]. discriminate.
          * exfalso. apply P. intros _ _. discriminate.
      - rewrite andb_false_r. split; [discriminate|]. intros [P _]. exfalso. apply P. discriminate. }
    destruct (flt fzero dI) eqn:E.
    + destruct (circle_case nx ny (fdiv dI (fofZ 2)) xo yo ns true Hx Hy Hn) as [[Q' ->]|[(Q' & L' & ->)|(Q' & L' & c' & ->)]]; cbn [bind]; [|contradiction|].
      * split; [intros [= <-]; right; split; [auto|right; split; [auto|left; split; [tauto|reflexivity]]]|].
        intros [[P _]|[_ [[P _]|[_ [[_ ->]|[P _]]]]]]; [contradiction|contradiction|reflexivity|exfalso; exact (P eq_refl Q')].
      * rewrite S. tauto.
    + cbn [bind]. rewrite S. split; [intros P; right; split; [auto|right; split; [auto|right; split; [discriminate|left; exact P]]]|].
      intros [[P _]|[_ [[P _]|[_ [[P _]|[_ [P|[_ []]]]]]]]]; try contradiction; auto. exfalso. apply P. discriminate.
Qed.
