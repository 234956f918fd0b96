(** Proofs about refused inputs. *)
From Coq Require Import ZArith Bool List String Reals Lra Lia.
From Verif.Base Require Import Py Arr Vec Lstsq.
From Verif.Model Require Import Fits PupilUtil Shapes Yaml DarkHole FocalFit Occastro DmReg.
From Verif.Spec Require Import ShapesSpec DarkHoleSpec FocalFitSpec FitsSpec PupilUtilSpec OccastroSpec RefuseSpec.
From Verif.Proofs Require Import ShapesP DarkHoleP FocalFitP OccastroP.
Import ListNotations.
Open Scope string_scope.
Open Scope Z_scope.

Lemma refused_iff P e0 l e : refused ((P, e0) :: l) e <-> (~ P /\ e = e0) \/ (P /\ refused l e).
Proof.
  split.
  - intros H. inversion H; subst; auto.
  - intros [[N ->]|[Y H]]; [apply refused_here|apply refused_later]; auto.
Qed.
Lemma refused_met l e : refused l e -> met l -> False.
Proof. induction 1; intros M; inversion M; subst; cbn in *; auto. Qed.
Lemma refused_app l l' e : refused (l ++ l') e <-> refused l e \/ (met l /\ refused l' e).
Proof.
  induction l as [|[P e0] l IH]; cbn [app].
  - split; [intros H; right; split; [constructor|auto]|intros [H|[_ H]]; [inversion H|auto]].
  - rewrite !refused_iff, IH. unfold met. split.
    + intros [H|[H [K|[K L]]]]; [tauto|tauto|]. right. split; [apply Forall_cons; auto|auto].
    + intros [[H|[H K]]|[H K]]; [tauto|tauto|]. apply Forall_cons_iff in H. cbn in H. tauto.
Qed.
Lemma met_or l : met l \/ exists e, refused l e.
Proof.
  induction l as [|[P e0] l IH]; [left; constructor|].
  destruct (Classical_Prop.classic P) as [H|H].
  - destruct IH as [IH|(e & IH)]; [left; apply Forall_cons; auto|right; exists e; apply refused_later; auto].
  - right. exists e0. apply refused_here; auto.
Qed.
Lemma met_app l l' : met (l ++ l') <-> met l /\ met l'.
Proof. unfold met. apply Forall_app. Qed.
Lemma refused_nil e : refused [] e <-> False.
Proof. split; [inversion 1|tauto]. Qed.

(** One step of a reading program against one requirement. *)
Section Step.
  Context {A B : Type} (m : res A) (k : A -> res B) (P : Prop) (e0 : exn) (rest : list (Prop * exn)) (e : exn).
  Lemma step : (forall x, m = Ok x -> P) -> (forall e', m = Err e' -> ~ P /\ e' = e0) ->
    (forall x, m = Ok x -> (k x = Err e <-> refused rest e)) -> bind m k = Err e <-> refused ((P, e0) :: rest) e.
  Proof.
    intros H1 H2 H3. rewrite refused_iff. destruct m as [x|e'] eqn:E; cbn [bind].
    - rewrite (H3 x eq_refl). split; [intros H; right; split; [exact (H1 x eq_refl)|auto]|intros [[N _]|[_ H]]; [destruct (N (H1 x eq_refl))|auto]].
    - destruct (H2 e' eq_refl) as [N ->]. split; [intros [= ->]; auto|intros [[_ ->]|[Y _]]; [auto|contradiction]].
  Qed.
End Step.
Lemma check_step {B} b (k : res B) P e0 rest e : (b = true <-> P) -> (P -> (k = Err e <-> refused rest e)) ->
  bind (guard b e0) (fun _ => k) = Err e <-> refused ((P, e0) :: rest) e.
Proof.
  intros H K. apply step.
  - intros u G. apply H. destruct b; [auto|discriminate].
  - intros e' G. destruct b; [discriminate|]. injection G as <-. split; [|auto]. intros Y. apply H in Y. discriminate.
  - intros u G. apply K. apply H. destruct b; [auto|discriminate].
Qed.
Lemma item_err v k e : item v k = Err e -> (e = TypeError /\ ~ dictionary v) \/ (e = KeyError /\ dictionary v /\ ~ present v k).
Proof.
  unfold dictionary, present. destruct v; cbn; try (intros [= <-]; left; split; [auto|intros (? & ?); discriminate]).
  destruct (assoc k d) eqn:E; [discriminate|]. intros [= <-]. right. split; [auto|]. split; [eauto|].
  intros (x & H). apply item_has in H. cbn in H. rewrite E in H. discriminate.
Qed.
Lemma has_dictionary v k x : has v k x -> dictionary v.
Proof. intros (d & -> & _). exists d. auto. Qed.
Lemma item_step {B} v k (K : yval -> res B) rest e : dictionary v -> (forall x, has v k x -> (K x = Err e <-> refused rest e)) ->
  bind (item v k) K = Err e <-> refused ((present v k, KeyError) :: rest) e.
Proof.
  intros D H. apply step.
  - intros x I. exists x. apply item_has. auto.
  - intros e' I. destruct (item_err _ _ _ I) as [[_ N]|(-> & _ & N)]; [contradiction|auto].
  - intros x I. apply H. apply item_has. auto.
Qed.
Lemma first_item {B} v k (K : yval -> res B) rest e : (dictionary v -> forall x, has v k x -> (K x = Err e <-> refused rest e)) ->
  bind (item v k) K = Err e <-> refused ((dictionary v, TypeError) :: (present v k, KeyError) :: rest) e.
Proof.
  intros H. rewrite refused_iff. destruct (Classical_Prop.classic (dictionary v)) as [D|D].
  - rewrite (item_step v k K rest e D (H D)). tauto.
  - destruct (item v k) as [x|e'] eqn:E.
    + destruct D. apply item_has in E. exact (has_dictionary _ _ _ E).
    + cbn [bind]. destruct (item_err _ _ _ E) as [[-> _]|(_ & Y & _)]; [|contradiction].
      split; [intros [= <-]; auto|intros [[_ ->]|[Y _]]; [auto|contradiction]].
Qed.
Lemma real_err v e : real_scalar_ v = Err e -> e = TypeError.
Proof. unfold real_scalar_. destruct (as_real v); [discriminate|]. intros [= <-]. auto. Qed.
Lemma positive_err v e : positive_scalar_ v = Err e -> e = TypeError.
Proof.
  unfold positive_scalar_. destruct (real_scalar_ v) eqn:E; cbn [bind]; [|intros [= <-]; eapply real_err; eauto].
  destruct (Rltb 0 a); [discriminate|]. intros [= <-]. auto.
Qed.
Lemma nonnegative_err v e : nonnegative_scalar_ v = Err e -> e = TypeError.
Proof.
  unfold nonnegative_scalar_. destruct (real_scalar_ v) eqn:E; cbn [bind]; [|intros [= <-]; eapply real_err; eauto].
  destruct (Rleb 0 a); [discriminate|]. intros [= <-]. auto.
Qed.
Lemma int_err v e : positive_int_ v = Err e -> e = TypeError.
Proof. unfold positive_int_. destruct (as_int v); [|intros [= <-]; auto]. destruct (0 <? z); [discriminate|]. intros [= <-]. auto. Qed.

Lemma real_step {B} v k x (K : R -> res B) rest e : has v k x -> (forall r, has_real v k r -> (K r = Err e <-> refused rest e)) ->
  bind (real_scalar_ x) K = Err e <-> refused ((a_real v k, TypeError) :: rest) e.
Proof.
  intros Hx H. apply step.
  - intros r E. exists r, x. split; [auto|apply real_ok; auto].
  - intros e' E. split; [|eapply real_err; eauto]. intros (r & y & Hy & I). rewrite (has_det _ _ _ _ Hy Hx) in I.
    apply real_ok in I. congruence.
  - intros r E. apply H. exists x. split; [auto|apply real_ok; auto].
Qed.
Lemma positive_step {B} v k x (K : R -> res B) rest e : has v k x -> (forall r, has_real v k r -> (0 < r)%R -> (K r = Err e <-> refused rest e)) ->
  bind (positive_scalar_ x) K = Err e <-> refused ((a_positive v k, TypeError) :: rest) e.
Proof.
  intros Hx H. apply step.
  - intros r E. apply positive_ok in E. exists r. split; [exists x; tauto|tauto].
  - intros e' E. split; [|eapply positive_err; eauto]. intros (r & (y & Hy & I) & P). rewrite (has_det _ _ _ _ Hy Hx) in I.
    rewrite (proj2 (positive_ok x r) (conj I P)) in E. discriminate.
  - intros r E. apply positive_ok in E. apply H; [exists x; tauto|tauto].
Qed.
Lemma nonnegative_step {B} v k x (K : R -> res B) rest e : has v k x -> (forall r, has_real v k r -> (0 <= r)%R -> (K r = Err e <-> refused rest e)) ->
  bind (nonnegative_scalar_ x) K = Err e <-> refused ((a_nonnegative v k, TypeError) :: rest) e.
Proof.
  intros Hx H. apply step.
  - intros r E. apply nonnegative_ok in E. exists r. split; [exists x; tauto|tauto].
  - intros e' E. split; [|eapply nonnegative_err; eauto]. intros (r & (y & Hy & I) & P). rewrite (has_det _ _ _ _ Hy Hx) in I.
    rewrite (proj2 (nonnegative_ok x r) (conj I P)) in E. discriminate.
  - intros r E. apply nonnegative_ok in E. apply H; [exists x; tauto|tauto].
Qed.
Lemma count_step {B} v k x (K : Z -> res B) rest e : has v k x -> (forall z, has_int v k z -> 0 < z -> (K z = Err e <-> refused rest e)) ->
  bind (positive_int_ x) K = Err e <-> refused ((a_count v k, TypeError) :: rest) e.
Proof.
  intros Hx H. apply step.
  - intros r E. apply int_ok in E. exists r. split; [exists x; tauto|tauto].
  - intros e' E. split; [|eapply int_err; eauto]. intros (r & (y & Hy & I) & P). rewrite (has_det _ _ _ _ Hy Hx) in I.
    rewrite (proj2 (int_ok x r) (conj I P)) in E. discriminate.
  - intros r E. apply int_ok in E. apply H; [exists x; tauto|tauto].
Qed.
(** The frame of the image. *)
Lemma frame_step {B} img r x y ns (K : arr R -> res B) rest e : (0 < r)%R -> 0 < ns ->
  (1 < nc img -> 0 < nr img -> forall m, roi img r x y ns = Ok m -> (K m = Err e <-> refused rest e)) ->
  bind (roi img r x y ns) K = Err e <-> refused (frame img ++ rest) e.
Proof.
  intros Hr Hn H. unfold frame. cbn [app]. rewrite !refused_iff. unfold roi in *.
  destruct (circle_err (nc img) (nr img) r x y ns false) as [E1 E2].
  destruct (Z_lt_dec 0 (nc img)) as [C|C].
  - destruct (Z_lt_dec 0 (nr img)) as [D|D].
    + destruct (Z_lt_dec 1 (nc img)) as [F|F].
      * destruct (circle_ok (nc img) (nr img) r x y ns false) as (m & E & _); [repeat split; lia || auto|].
        rewrite E. cbn [bind]. rewrite (H F D m E). tauto.
      * rewrite (E2 ltac:(lia) D Hr Hn). cbn [bind]. split; [intros [= <-]; tauto|]. intros G. f_equal. destruct G as [[]|[_ [[]|[_ [[_ ->]|[]]]]]]; tauto.
    + rewrite E1 by lia. cbn [bind]. split; [intros [= <-]; tauto|]. intros G. f_equal. destruct G as [[]|[_ [[_ ->]|[]]]]; tauto.
  - rewrite E1 by lia. cbn [bind]. split; [intros [= <-]; tauto|]. intros G. f_equal. destruct G as [[_ ->]|[]]; tauto.
Qed.

(** The tail of the file is read after all requirements hold. *)
Lemma not_err {B} (m : res B) x e : m = Ok x -> m = Err e <-> refused [] e.
Proof. intros ->. rewrite refused_nil. split; [discriminate|tauto]. Qed.

Lemma int_det v k a b : has_int v k a -> has_int v k b -> a = b.
Proof. intros (x & A & B) (y & A' & B'). rewrite (has_det _ _ _ _ A A') in B. destruct B; inversion B'; auto. Qed.
Lemma or_check v k z p q : has_int v k z -> ((z =? p) || (z =? q))%Z = true <-> has_int v k p \/ has_int v k q.
Proof.
  intros H. rewrite orb_true_iff, !Z.eqb_eq. split; [intros [<-|<-]; auto|].
  intros [G|G]; rewrite (int_det _ _ _ _ H G); auto.
Qed.
Lemma inside_step {B} v k x (K : Z -> res B) rest e : has v k x -> (forall z, has_int v k z -> (K z = Err e <-> refused rest e)) ->
  (match as_int x with None => Err TypeError | Some z => K z end) = Err e <-> refused ((an_int v k, TypeError) :: rest) e.
Proof.
  intros Hx H. rewrite refused_iff. destruct (as_int x) as [z|] eqn:E.
  - assert (I : has_int v k z) by (exists x; split; [auto|apply as_int_ok; auto]). rewrite (H z I).
    assert (an_int v k) by (exists z; auto). tauto.
  - assert (~ an_int v k). { intros (z & y & Hy & I). rewrite (has_det _ _ _ _ Hy Hx) in I. apply as_int_ok in I. congruence. }
    split; [intros [= <-]; auto|intros [[_ ->]|[]]; tauto].
Qed.
Lemma bind_err_free {A B} (m : res A) (K : A -> res B) e x rest : m = Ok x -> (K x = Err e <-> refused rest e) -> bind m K = Err e <-> refused rest e.
Proof. intros ->. auto. Qed.
Lemma ratio_pos a b : (0 < a)%R -> (0 < b)%R -> (0 < a / b)%R.
Proof. intros. apply Rmult_lt_0_compat; [auto|apply Rinv_0_lt_compat; auto]. Qed.

Lemma spots_refused img rot xo yo tv gv e : calc_offset_from_spots img rot xo yo tv gv = Err e <-> refused (spots_needs img tv gv) e.
Proof.
  unfold spots_needs, keys. cbn [app map]. unfold calc_offset_from_spots.
  apply first_item. intros _ g G. apply (positive_step gv _ _ _ _ _ G). intros ratio Ratio Rpos.
  apply first_item. intros D x1 H1. do 7 (apply (item_step tv _ _ _ _ D); intros ? ?).
  repeat (first [eapply positive_step; [eassumption|intros ? ? ?] | eapply count_step; [eassumption|intros ? ? ?]]).
  apply check_step; [apply or_check; assumption|]. intros _.
  eapply inside_step; [eassumption|]. intros ins I. apply check_step; [apply or_check; assumption|]. intros _.
  cbv zeta. rewrite <- (app_nil_r (frame img)). apply frame_step; auto. intros Hc Hr m E.
  match goal with |- bind (roi _ ?r ?x ?y ?n) _ = _ <-> _ => destruct (roi_ok img r x y n) as (m' & E' & _); auto end.
  rewrite E'. cbn [bind].
  match goal with |- context [(floor_sum ?a / floor_sum ?b)%R] => pose proof (ratio_pos _ _ (proj2 (floor_ok a)) (proj2 (floor_ok b))) as Q end.
  match goal with |- context [offset_quadratic ?c1 ?c2 ?r] => 
    assert (O : forall r, (0 < r)%R -> exists d, (if (z0 =? 1)%Z then offset_linear c1 r else offset_quadratic c1 c2 r) = Ok (Fin d)) end.
  { intros q Hq. match goal with |- context [offset_quadratic ?c1 ?c2 _] =>
      destruct (linear_ok c1 q) as (d1 & L1 & _); [auto..|]; destruct (quadratic_ok c1 c2 q) as (d2 & L2 & _); [auto..|] end.
    destruct (z0 =? 1)%Z; eauto. }
  destruct (O _ Q) as (d0 & E0). destruct (O _ Rpos) as (dt & Et). rewrite E0, Et. cbn [bind nsub]. rewrite bound_fin by lra. cbn [bind].
  eapply not_err. reflexivity.
Qed.
Lemma degrees_step {B} v k x (K : R -> res B) rest e : has v k x -> (forall r, has_real v k r -> (K (PI / 180 * r)%R = Err e <-> refused rest e)) ->
  bind (degrees_ x) K = Err e <-> refused ((a_real v k, TypeError) :: rest) e.
Proof.
  intros Hx H. unfold degrees_. destruct (as_real x) as [r|] eqn:E; cbn [bind]; rewrite refused_iff.
  - assert (I : has_real v k r) by (exists x; split; [auto|apply real_iff; auto]). rewrite (H r I).
    assert (a_real v k) by (exists r; auto). tauto.
  - assert (~ a_real v k). { intros (z & y & Hy & I). rewrite (has_det _ _ _ _ Hy Hx) in I. apply real_iff in I. congruence. }
    split; [intros [= <-]; auto|intros [[_ ->]|[]]; tauto].
Qed.
Lemma target_step {B} v k x c1 c2 (K : num -> res B) rest e : has v k x -> (0 < c1)%R -> (0 < c2)%R ->
  (forall r d, has_real v k r -> (0 < r)%R -> (K (Fin d) = Err e <-> refused rest e)) ->
  bind (ratio_ x) (fun r => bind (offset_quadratic c1 c2 r) K) = Err e <-> refused ((a_positive v k, ValueError) :: rest) e.
Proof.
  intros Hx P1 P2 H. unfold ratio_. rewrite refused_iff. destruct (as_real x) as [r|] eqn:E; cbn [bind].
  - assert (I : has_real v k r) by (exists x; split; [auto|apply real_iff; auto]).
    destruct (Rlt_dec 0 r) as [P|P].
    + destruct (quadratic_ok c1 c2 r P1 P2 P) as (d & -> & _). cbn [bind]. rewrite (H r d I P).
      assert (a_positive v k) by (exists r; auto). tauto.
    + rewrite (proj1 (offset_bad_ratio c1 c2 r ltac:(lra))). cbn [bind].
      assert (~ a_positive v k). { intros (r' & (y & Hy & I') & P'). apply P. apply real_iff in I'. rewrite (has_det _ _ _ _ Hy Hx) in I'. congruence. }
      split; [intros [= <-]; auto|intros [[_ ->]|[]]; tauto].
  - assert (~ a_positive v k). { intros (z & (y & Hy & I) & _). rewrite (has_det _ _ _ _ Hy Hx) in I. apply real_iff in I. congruence. }
    split; [intros [= <-]; auto|intros [[_ ->]|[]]; tauto].
Qed.
Lemma bowtie_refused img xo yo tv e : calc_bowtie_offsets img xo yo tv = Err e <-> refused (bowtie_needs img tv) e.
Proof.
  unfold bowtie_needs, keys. cbn [app map]. unfold calc_bowtie_offsets.
  apply first_item. intros D x1 H1. do 11 (apply (item_step tv _ _ _ _ D); intros ? ?).
  repeat (first [eapply positive_step; [eassumption|intros ? ? ?] | eapply count_step; [eassumption|intros ? ? ?]]).
  eapply degrees_step; [eassumption|]. intros ? ?. eapply degrees_step; [eassumption|]. intros ? ?.
  apply frame_step; auto. intros Hc Hr m E.
  do 3 (match goal with |- bind (roi _ ?r ?x ?y ?n) _ = _ <-> _ => let E' := fresh "E" in destruct (roi_ok img r x y n) as (? & E' & _); [auto..|]; rewrite E'; cbn [bind] end).
  cbv zeta.
  assert (F : forall s, (0 < floor_sum s)%R) by (intros; apply floor_ok).
  match goal with |- bind (offset_quadratic ?c1 ?c2 ?r) _ = _ <-> _ => destruct (quadratic_ok c1 c2 r) as (d & Ew & _); [auto|auto|apply ratio_pos; apply Rplus_lt_0_compat; auto|] end.
  rewrite Ew. cbn [bind]. eapply target_step; [eassumption|auto|auto|]. intros ? ? ? ?.
  match goal with |- bind (offset_quadratic ?c1 ?c2 ?r) _ = _ <-> _ => destruct (quadratic_ok c1 c2 r) as (d' & Ew' & _); [auto|auto|apply ratio_pos; apply Rplus_lt_0_compat; auto|] end.
  rewrite Ew'. cbn [bind]. eapply target_step; [eassumption|auto|auto|]. intros ? ? ? ?.
  cbn [nopp nsub]. rewrite !bound_fin by lra. cbn [bind]. eapply not_err. reflexivity.
Qed.

(** ** Dark holes *)
Lemma real_det v k a b : has_real v k a -> has_real v k b -> a = b.
Proof. intros (x & A & B) (y & A' & B'). rewrite (has_det _ _ _ _ A A') in B. destruct B; inversion B'; auto. Qed.
Lemma radii_check w ri ro : has_real w "radiusInner" ri -> has_real w "radiusOuter" ro ->
  negb (Rltb ro ri) = true <-> exists ri ro, has_real w "radiusInner" ri /\ has_real w "radiusOuter" ro /\ (ri <= ro)%R.
Proof.
  intros H1 H2. rewrite radii_ok. split; [intros; exists ri, ro; auto|].
  intros (a & b & A & B & L). rewrite (real_det _ _ _ _ H1 A), (real_det _ _ _ _ H2 B). auto.
Qed.
Lemma bind_ok_free {A B} (m : res A) (K : A -> res B) x : m = Ok x -> bind m K = K x.
Proof. intros ->. auto. Qed.

Section Shape.
  Context (nR nC : yval) (n m : Z) (Hn : is_int nR n) (Hm : is_int nC m) (Pn : 0 < n) (Pm : 0 < m) (w : yval).
  Lemma rectangle_refused X Y e : has w "xOffset" X -> has w "yOffset" Y ->
    (do a <- item w "width"; do h <- item w "height"; gen_rectangle nR nC X Y a h) = Err e <-> refused (rectangle_needs w) e.
  Proof.
    intros HX HY. unfold rectangle_needs. pose proof (has_dictionary _ _ _ HX) as D.
    apply item_step; [auto|]. intros a Ha. apply item_step; [auto|]. intros h Hh.
    unfold gen_rectangle. rewrite (proj2 (int_ok nR n) (conj Hn Pn)), (proj2 (int_ok nC m) (conj Hm Pm)). cbn [bind].
    eapply real_step; [eassumption|intros ? ?]. eapply real_step; [eassumption|intros ? ?].
    eapply positive_step; [eassumption|intros ? ? ?]. eapply positive_step; [eassumption|intros ? ? ?].
    eapply not_err. reflexivity.
  Qed.
  Lemma annulus_refused X Y e : has w "xOffset" X -> has w "yOffset" Y ->
    (do ri <- item w "radiusInner"; do ro <- item w "radiusOuter"; gen_annulus nR nC X Y ri ro) = Err e <-> refused (annulus_needs w) e.
  Proof.
    intros HX HY. unfold annulus_needs, radii_needs. cbn [app]. pose proof (has_dictionary _ _ _ HX) as D.
    apply item_step; [auto|]. intros a Ha. apply item_step; [auto|]. intros h Hh.
    unfold gen_annulus. rewrite (proj2 (int_ok nR n) (conj Hn Pn)), (proj2 (int_ok nC m) (conj Hm Pm)). cbn [bind].
    eapply real_step; [eassumption|intros ? ?]. eapply real_step; [eassumption|intros ? ?].
    eapply nonnegative_step; [eassumption|intros ? ? ?]. eapply nonnegative_step; [eassumption|intros ? ? ?].
    apply check_step; [apply radii_check; auto|]. intros _. eapply not_err. reflexivity.
  Qed.
  Lemma sector_core X Y Ri Ro Op Cl e : has w "xOffset" X -> has w "yOffset" Y -> has w "radiusInner" Ri -> has w "radiusOuter" Ro ->
    has w "openingAngle" Op -> has w "clocking" Cl ->
    gen_annular_sector nR nC X Y Ri Ro Op Cl = Err e <-> refused (radii_needs w ++ [(a_positive w "openingAngle", TypeError); (a_real w "clocking", TypeError)]) e.
  Proof.
    intros. unfold radii_needs. cbn [app].
    unfold gen_annular_sector. rewrite (proj2 (int_ok nR n) (conj Hn Pn)), (proj2 (int_ok nC m) (conj Hm Pm)). cbn [bind].
    eapply real_step; [eassumption|intros ? ?]. eapply real_step; [eassumption|intros ? ?].
    eapply nonnegative_step; [eassumption|intros ? ? ?]. eapply nonnegative_step; [eassumption|intros ? ? ?].
    apply check_step; [apply radii_check; auto|]. intros _.
    eapply positive_step; [eassumption|intros ? ? ?]. eapply real_step; [eassumption|intros ? ?]. eapply not_err. reflexivity.
  Qed.
  Lemma bowtie_core X Y Ri Ro Op Cl e : has w "xOffset" X -> has w "yOffset" Y -> has w "radiusInner" Ri -> has w "radiusOuter" Ro ->
    has w "openingAngle" Op -> has w "clocking" Cl ->
    gen_bowtie nR nC X Y Ri Ro Op Cl = Err e <-> refused (radii_needs w ++ [(a_positive w "openingAngle", TypeError); (a_real w "clocking", TypeError)]) e.
  Proof.
    intros HX HY HRi HRo HOp HCl. unfold radii_needs. cbn [app].
    unfold gen_bowtie. rewrite (proj2 (int_ok nR n) (conj Hn Pn)), (proj2 (int_ok nC m) (conj Hm Pm)). cbn [bind].
    eapply real_step; [eassumption|intros xo Hxo]. eapply real_step; [eassumption|intros yo Hyo].
    eapply nonnegative_step; [eassumption|intros ri Hri Pri]. eapply nonnegative_step; [eassumption|intros ro Hro Pro].
    apply check_step; [apply radii_check; auto|]. intros L.
    eapply positive_step; [eassumption|intros op Hop Pop]. eapply real_step; [eassumption|intros cl Hcl].
    assert (Q : forall k x r, has w k x -> has_real w k r -> is_real x r).
    { intros k x r A (y & B & I). rewrite (has_det _ _ _ _ A B). auto. }
    assert (Lr : (ri <= ro)%R). { destruct L as (a & b & A & B & L). rewrite (real_det _ _ _ _ Hri A), (real_det _ _ _ _ Hro B). auto. }
    destruct (sector_good nR nC X Y Ri Ro Op Cl n m xo yo ri ro op cl) as (a & Ea & _); eauto; try (repeat split; auto; fail).
    destruct (sector_good nR nC X Y Ri Ro Op (plus180 Cl) n m xo yo ri ro op (cl + 180)) as (b & Eb & _); eauto using plus180_real; try (repeat split; auto; fail).
    rewrite Ea, Eb. cbn [bind]. eapply not_err. reflexivity.
  Qed.
End Shape.
Lemma refused_det l e e' : refused l e -> refused l e' -> e = e'.
Proof. induction 1; intros K; inversion K; subst; auto; contradiction. Qed.
Lemma item_not_dictionary v k : ~ dictionary v -> item v k = Err TypeError.
Proof. intros N. destruct v; cbn; auto. destruct N. exists d. auto. Qed.
Lemma item_missing v k : dictionary v -> ~ present v k -> item v k = Err KeyError.
Proof.
  intros D N. destruct (item v k) as [x|e] eqn:E; [apply item_has in E; destruct N; exists x; auto|].
  destruct (item_err _ _ _ E) as [[_ H]|(-> & _)]; [contradiction|auto].
Qed.
Definition known (s : string) : Prop := In s ["rectangle"; "annulus"; "annular_sector"; "bowtie"].
Lemma name_unknown nR nC w X Y v : has w "xOffset" X -> has w "yOffset" Y -> has w "shape" v ->
  ~ (exists s, known s /\ has w "shape" (YStr s)) -> gen_shape nR nC w = Err ValueError.
Proof.
  intros HX HY HS N. unfold gen_shape. rewrite (proj2 (item_has _ _ _) HX), (proj2 (item_has _ _ _) HY), (proj2 (item_has _ _ _) HS). cbn [bind].
  destruct v; auto.
  repeat match goal with |- context [String.eqb s ?n] => destruct (String.eqb_spec s n) as [->|?]; [destruct N; eexists; split; [|eassumption]; unfold known; cbn; tauto|] end.
  auto.
Qed.
Lemma any_refused nR nC w e : refused (any_shape_needs w) e -> gen_shape nR nC w = Err e.
Proof.
  unfold any_shape_needs, keys. cbn [app map]. intros H.
  apply refused_iff in H as [[N ->]|[D H]]; [unfold gen_shape; rewrite item_not_dictionary; auto|].
  apply refused_iff in H as [[N ->]|[(X & HX) H]]; [unfold gen_shape; rewrite item_missing; auto|].
  apply refused_iff in H as [[N ->]|[(Y & HY) H]]; [unfold gen_shape; rewrite (proj2 (item_has _ _ _) HX); cbn [bind]; rewrite item_missing; auto|].
  apply refused_iff in H as [[N ->]|[(v & HS) H]].
  { unfold gen_shape. rewrite (proj2 (item_has _ _ _) HX), (proj2 (item_has _ _ _) HY). cbn [bind]. rewrite item_missing; auto. }
  apply refused_iff in H as [[N ->]|[_ H]]; [eapply name_unknown; eauto|inversion H].
Qed.
Lemma any_met w : met (any_shape_needs w) -> exists X Y s, has w "xOffset" X /\ has w "yOffset" Y /\ has w "shape" (YStr s) /\ known s.
Proof.
  unfold met, any_shape_needs, keys. cbn [app map]. rewrite !Forall_cons_iff. cbn [fst].
  intros (_ & (X & HX) & (Y & HY) & _ & (s & I & HS) & _). exists X, Y, s. auto.
Qed.
Lemma shape_refused_iff nR nC n m w e : is_int nR n -> is_int nC m -> 0 < n -> 0 < m -> gen_shape nR nC w = Err e <-> shape_refused w e.
Proof.
  intros Hn Hm Pn Pm. destruct (met_or (any_shape_needs w)) as [M|(e' & H)].
  - destruct (any_met w M) as (X & Y & s & HX & HY & HS & I). unfold gen_shape.
    rewrite (proj2 (item_has _ _ _) HX), (proj2 (item_has _ _ _) HY), (proj2 (item_has _ _ _) HS). cbn [bind].
    assert (U : forall t, has w "shape" (YStr t) -> t = s) by (intros t H; pose proof (has_det _ _ _ _ HS H) as Q; injection Q; auto).
    destruct I as [<-|[<-|[<-|[<-|[]]]]]; cbn [String.eqb Ascii.eqb Bool.eqb].
    + rewrite (rectangle_refused nR nC n m) by auto. split; [intros; apply shape_rectangle; auto|].
      intros [H|_ H K|_ H K|_ [H|H] K]; [destruct (refused_met _ _ H M)|auto|apply U in H; discriminate..].
    + rewrite (annulus_refused nR nC n m) by auto. split; [intros; apply shape_annulus; auto|].
      intros [H|_ H K|_ H K|_ [H|H] K]; [destruct (refused_met _ _ H M)|apply U in H; discriminate|auto|apply U in H; discriminate..].
    + transitivity (refused (sector_needs w) e).
      * unfold sector_needs. cbn [app]. pose proof (has_dictionary _ _ _ HX) as D. do 4 (apply item_step; [auto|]; intros ? ?).
        eapply sector_core; eauto.
      * split; [intros; apply shape_wedge; auto|].
        intros [H|_ H K|_ H K|_ H K]; [destruct (refused_met _ _ H M)|apply U in H; discriminate..|auto].
    + transitivity (refused (sector_needs w) e).
      * unfold sector_needs. cbn [app]. pose proof (has_dictionary _ _ _ HX) as D. do 4 (apply item_step; [auto|]; intros ? ?).
        eapply bowtie_core; eauto.
      * split; [intros; apply shape_wedge; auto|].
        intros [H|_ H K|_ H K|_ H K]; [destruct (refused_met _ _ H M)|apply U in H; discriminate..|auto].
  - rewrite (any_refused nR nC w e' H). split; [intros [= <-]; apply shape_any; auto|].
    intros [K|M|M|M]; [f_equal; eapply refused_det; eauto|destruct (refused_met _ _ H M)..].
Qed.
Lemma combine_refused nR nC n m e : is_int nR n -> is_int nC m -> 0 < n -> 0 < m -> forall shapes k,
  combine_shapes nR nC shapes k = Err e <->
  exists pre key w post, shapes = (pre ++ (key, w) :: post)%list /\ (forall k' w' e', In (k', w') pre -> ~ shape_refused w' e') /\ shape_refused w e.
Proof.
  intros Hn Hm Pn Pm. induction shapes as [|[key w] shapes IH]; intros k; cbn [combine_shapes].
  - split; [discriminate|]. intros (pre & ? & ? & ? & E & _). destruct pre; discriminate.
  - destruct (gen_shape nR nC w) as [s|e'] eqn:E; cbn [bind].
    + rewrite IH. split.
      * intros (pre & key' & w' & post & -> & F & G). exists ((key, w) :: pre)%list, key', w', post. split; [auto|]. split; [|auto].
        intros k' u e' [[= <- <-]|I]; [|eapply F; eauto]. rewrite <- (shape_refused_iff nR nC n m) by auto. congruence.
      * intros (pre & key' & w' & post & Q & F & G). destruct pre as [|[k0 w0] pre].
        -- injection Q as -> -> ->. apply (shape_refused_iff nR nC n m) in G; auto. congruence.
        -- injection Q as -> -> ->. exists pre, key', w', post. split; [auto|]. split; [|auto]. intros. eapply F. right. eauto.
    + split.
      * intros [= <-]. exists nil, key, w, shapes. split; [auto|]. split; [intros ? ? ? []|]. apply (shape_refused_iff nR nC n m); auto.
      * intros (pre & key' & w' & post & Q & F & G). destruct pre as [|[k0 w0] pre].
        -- injection Q as -> -> ->. apply (shape_refused_iff nR nC n m) in G; auto. congruence.
        -- injection Q as -> -> ->. apply (shape_refused_iff nR nC n m) in E; auto. destruct (F k0 w0 e'); [left; auto|auto].
Qed.
Lemma items_ok v d : items v = Ok d <-> v = YDict d.
Proof. destruct v; cbn; split; congruence. Qed.
Lemma hole_refused_iff v e : gen_dark_hole v = Err e <-> hole_refused v e.
Proof.
  destruct (met_or (hole_needs v)) as [M|(e' & H)].
  - pose proof M as M'. unfold met, hole_needs, keys in M'. cbn [app map] in M'. rewrite !Forall_cons_iff in M'. cbn [fst] in M'.
    destruct M' as (_ & _ & _ & (n & (nR & HR & IR) & Pn) & (m & (nC & HC & IC) & Pm) & _ & (d & Hd) & _).
    unfold gen_dark_hole. rewrite (proj2 (item_has _ _ _) HR), (proj2 (item_has _ _ _) HC). cbn [bind].
    rewrite (proj2 (int_ok nR n) (conj IR Pn)), (proj2 (int_ok nC m) (conj IC Pm)). cbn [bind].
    rewrite (proj2 (item_has _ _ _) Hd). cbn [bind items]. rewrite (combine_refused nR nC n m) by auto. split.
    + intros (pre & key & w & post & -> & F & G). eapply hole_shape; eauto.
    + intros [H|pre key w post _ Hs F G]; [destruct (refused_met _ _ H M)|].
      pose proof (has_det _ _ _ _ Hd Hs) as Q. injection Q as ->. exists pre, key, w, post. auto.
  - assert (E : gen_dark_hole v = Err e').
    { clear e. revert H. unfold hole_needs, keys. cbn [app map]. unfold gen_dark_hole. intros H.
      apply refused_iff in H as [[N ->]|[D H]]; [rewrite item_not_dictionary; auto|].
      apply refused_iff in H as [[N ->]|[(nR & HR) H]]; [rewrite item_missing; auto|]. rewrite (proj2 (item_has _ _ _) HR). cbn [bind].
      apply refused_iff in H as [[N ->]|[(nC & HC) H]]; [rewrite item_missing; auto|]. rewrite (proj2 (item_has _ _ _) HC). cbn [bind].
      apply refused_iff in H as [[N ->]|[(n & (x & Hx & I) & P) H]].
      { destruct (positive_int_ nR) eqn:E; cbn [bind]; [|f_equal; eapply int_err; eauto]. apply int_ok in E. destruct N. exists a. split; [exists nR|]; tauto. }
      rewrite (has_det _ _ _ _ Hx HR) in I. rewrite (proj2 (int_ok nR n) (conj I P)). cbn [bind].
      apply refused_iff in H as [[N ->]|[(m & (y & Hy & I') & P') H]].
      { destruct (positive_int_ nC) eqn:E; cbn [bind]; [|f_equal; eapply int_err; eauto]. apply int_ok in E. destruct N. exists a. split; [exists nC|]; tauto. }
      rewrite (has_det _ _ _ _ Hy HC) in I'. rewrite (proj2 (int_ok nC m) (conj I' P')). cbn [bind].
      apply refused_iff in H as [[N ->]|[(s & Hs) H]]; [rewrite item_missing; auto|]. rewrite (proj2 (item_has _ _ _) Hs). cbn [bind].
      apply refused_iff in H as [[N ->]|[_ H]]; [|inversion H].
      destruct s; cbn [items bind]; auto. destruct N. eauto. }
    rewrite E. split; [intros [= <-]; apply hole_header; auto|].
    intros [K|? ? ? ? M]; [f_equal; eapply refused_det; eauto|destruct (refused_met _ _ H M)].
Qed.

(** ** Star location and spot separation *)
Lemma reals_step {B} v k x (K : list R -> res B) rest e : has v k x -> (forall l, has_reals v k l -> (K l = Err e <-> refused rest e)) ->
  bind (number_list_ x) K = Err e <-> refused ((exists l, has_reals v k l, TypeError) :: rest) e.
Proof.
  intros Hx H. apply step.
  - intros l E. apply number_list_ok in E as (vs & -> & F). exists l, vs. auto.
  - intros e' E. split.
    + intros (l & vs & Hv & F). rewrite (has_det _ _ _ _ Hx Hv) in E. rewrite (proj2 (number_list_ok (YList vs) l)) in E by eauto. discriminate.
    + destruct x; cbn in E; try (injection E as <-; auto; fail).
      assert (Q : forall l, numbers_ l = Err e' -> e' = TypeError); [|eauto].
      clear. induction l as [|y l IH]; cbn [numbers_]; [discriminate|]. destruct (real_scalar_ y) eqn:E; cbn [bind].
      * destruct (numbers_ l) eqn:E'; cbn [bind]; [discriminate|]. intros [= ->]. auto.
      * intros [= ->]. eapply real_err; eauto.
  - intros l E. apply H. apply number_list_ok in E as (vs & -> & F). exists vs. auto.
Qed.
Definition locate_file (sepKey : string) (tv : yval) : list (Prop * exn) :=
  keys tv [sepKey; "roiRadiusPix"; "probeRotVecDeg"; "nSubpixels"; "nSteps"; "stepSize"; "nIter"] ++
  [(a_positive tv sepKey, TypeError); (a_positive tv "roiRadiusPix", TypeError); (exists l, has_reals tv "probeRotVecDeg" l, TypeError);
   (a_count tv "nSubpixels", TypeError); (a_count tv "nSteps", TypeError); (a_positive tv "stepSize", TypeError); (a_count tv "nIter", TypeError)].
Lemma locate_split img k tv : locate_needs img k tv =
  (locate_file k tv ++ map (fun r => (has_reals tv "probeRotVecDeg" [] \/ fst r, snd r)) (frame img))%list.
Proof. unfold locate_needs, locate_file. rewrite <- app_assoc. reflexivity. Qed.
Lemma read_refused_unit key tv e : read_spots key tv (fun _ _ _ _ _ _ _ => Ok tt) = Err e <-> refused (locate_file key tv) e.
Proof.
  unfold locate_file, keys. cbn [app map]. unfold read_spots.
  apply first_item. intros D ? ?. do 6 (apply (item_step tv _ _ _ _ D); intros ? ?).
  eapply positive_step; [eassumption|intros ? ? ?]. eapply positive_step; [eassumption|intros ? ? ?].
  eapply reals_step; [eassumption|intros ? ?]. eapply count_step; [eassumption|intros ? ? ?]. eapply count_step; [eassumption|intros ? ? ?].
  eapply positive_step; [eassumption|intros ? ? ?]. eapply count_step; [eassumption|intros ? ? ?]. eapply not_err. reflexivity.
Qed.
Lemma read_refused {A} key tv (k : R -> R -> list R -> Z -> Z -> R -> Z -> res A) e : refused (locate_file key tv) e -> read_spots key tv k = Err e.
Proof.
  intros H. apply read_refused_unit in H. revert H. unfold read_spots.
  do 14 (match goal with |- bind ?m _ = _ -> _ => destruct m; cbn [bind]; [|intros [= ->]; reflexivity] end). discriminate.
Qed.
Lemma read_met key tv : met (locate_file key tv) -> exists t, describes_spots key tv t.
Proof.
  unfold met, locate_file, keys. cbn [app map]. rewrite !Forall_cons_iff. cbn [fst].
  intros (_ & _ & _ & _ & _ & _ & _ & _ & (a & A & PA) & (b & B & PB) & (l & L) & (n & N & PN) & (s & S' & PS) & (d & D' & PD) & (i & I & PI') & _).
  exists (Spots a b l n s d i). unfold describes_spots. cbn [s_sep s_radius s_angles s_sub s_steps s_step s_iter]. tauto.
Qed.
Lemma reals_det v k l l' : has_reals v k l -> has_reals v k l' -> l = l'.
Proof.
  intros (a & A & F) (b & B & G). pose proof (has_det _ _ _ _ A B) as Q. injection Q as ->. clear - F G. revert l' G.
  induction F as [|x r b l I F IH]; intros l' G; inversion G as [|x' r' b' l2 I' F']; subst; auto. f_equal; [destruct I; inversion I'; auto|auto].
Qed.
Lemma frame_met img : met (frame img) <-> 1 < nc img /\ 0 < nr img.
Proof. unfold met, frame. rewrite !Forall_cons_iff. cbn [fst]. split; [tauto|]. intros [? ?]. repeat split; auto; lia. Qed.
Lemma frame_roi img r x y ns e : (0 < r)%R -> 0 < ns -> refused (frame img) e -> roi img r x y ns = Err e.
Proof.
  intros Hr Hn H. pose proof (frame_step img r x y ns (fun m => Ok m) [] e Hr Hn) as Q. rewrite app_nil_r in Q.
  apply Q in H; [|intros; eapply not_err; reflexivity]. destruct (roi img r x y ns); [discriminate|]. exact H.
Qed.
Lemma or_frame (P : Prop) l e : (P -> refused (map (fun r : Prop * exn => (P \/ fst r, snd r)) l) e -> False) /\
  (~ P -> (refused (map (fun r : Prop * exn => (P \/ fst r, snd r)) l) e <-> refused l e)).
Proof.
  induction l as [|[Q q] l [IH1 IH2]]; cbn [map fst snd]; (split; [intros H|intros H]).
  - inversion 1.
  - tauto.
  - rewrite refused_iff. intros [[N _]|[_ K]]; tauto.
  - rewrite !refused_iff. rewrite IH2 by auto. tauto.
Qed.
Lemma cost_frame img r ns a l sep x y e : (0 < r)%R -> 0 < ns -> refused (frame img) e -> roi_cost img r ns (a :: l) sep x y = Err e.
Proof. intros Hr Hn H. unfold roi_cost. cbn [roi_mask]. rewrite (frame_roi _ _ _ _ _ e) by auto. reflexivity. Qed.
Lemma cost_none img r ns sep x y : exists v, roi_cost img r ns [] sep x y = Ok v.
Proof. eexists. unfold roi_cost. reflexivity. Qed.
Lemma star_refused lstsq img xg yg tv e : is_lstsq_oracle lstsq ->
  (refused (locate_needs img "spotSepPix" tv) e -> calc_star_location_from_spots lstsq img xg yg tv = Err e) /\
  (calc_star_location_from_spots lstsq img xg yg tv = Err e -> e = Custom "QuadraticException" \/ refused (locate_needs img "spotSepPix" tv) e).
Proof.
  intros O. rewrite locate_split, refused_app, star_read.
  destruct (met_or (locate_file "spotSepPix" tv)) as [M|(e' & H)].
  2:{ rewrite (read_refused _ _ _ e' H). split.
      - intros [K|[M _]]; [f_equal; eapply refused_det; eauto|destruct (refused_met _ _ H M)].
      - intros [= ->]. auto. }
  destruct (read_met _ _ M) as (t & D). rewrite (read_ok _ _ _ _ D).
  assert (P : (0 < s_radius t)%R /\ 0 < s_sub t /\ 0 < s_steps t /\ 0 < s_iter t) by (repeat split; apply D). destruct P as (P1 & P2 & P3 & P4).
  assert (A : has_reals tv "probeRotVecDeg" (s_angles t)) by apply D.
  destruct (or_frame (has_reals tv "probeRotVecDeg" []) (frame img) e) as [W1 W2].
  destruct (s_angles t) as [|a l] eqn:EA.
  - split; [intros [K|[_ K]]; [destruct (refused_met _ _ K M)|destruct (W1 A K)]|].
    pose proof (star_fits lstsq O (fun x y => roi_cost img (s_radius t) (s_sub t) [] (s_sep t) (xg + x) (yg + y))
      (fun _ _ => FocalFit.masked_sum (afull (nr img) (nc img) 0%R) img) (s_steps t) (s_step t) (fun _ _ => eq_refl) P3 (Z.to_nat (s_iter t)) 0%R 0%R) as Q.
    intros E. rewrite E in Q. auto.
  - assert (N : ~ has_reals tv "probeRotVecDeg" []) by (intros K; pose proof (reals_det _ _ _ _ A K); discriminate).
    specialize (W2 N). rewrite W2. destruct (met_or (frame img)) as [F|(e' & H)].
    + split; [intros [K|[_ K]]; [destruct (refused_met _ _ K M)|destruct (refused_met _ _ K F)]|]. apply frame_met in F as [Hc Hr].
      pose proof (star_ok lstsq img xg yg tv t O D Hc Hr) as Q. rewrite star_read, (read_ok _ _ _ _ D), EA in Q. intros E. rewrite E in Q. auto.
    + assert (E : star_loop lstsq (fun x y => roi_cost img (s_radius t) (s_sub t) (a :: l) (s_sep t) (xg + x) (yg + y)) (s_steps t) (s_step t) (Z.to_nat (s_iter t)) 0 0 = Err e').
      { replace (Z.to_nat (s_iter t)) with (S (Z.to_nat (s_iter t - 1))) by lia. cbn [star_loop].
        replace (Z.to_nat (s_steps t)) with (S (Z.to_nat (s_steps t - 1))) by lia. cbn [fill_mat fill_vec].
        rewrite (cost_frame _ _ _ _ _ _ _ _ e') by auto. reflexivity. }
      rewrite E. split; [intros [K|[_ K]]; [destruct (refused_met _ _ K M)|f_equal; eapply refused_det; eauto]|]. intros [= ->]. auto.
Qed.
Lemma sep_refused lstsq img xo yo tv e : is_lstsq_oracle lstsq ->
  (refused (locate_needs img "spotSepGuessPix" tv) e -> calc_spot_separation lstsq img xo yo tv = Err e) /\
  (calc_spot_separation lstsq img xo yo tv = Err e -> e = Custom "QuadraticException" \/ refused (locate_needs img "spotSepGuessPix" tv) e).
Proof.
  intros O. rewrite locate_split, refused_app, sep_read.
  destruct (met_or (locate_file "spotSepGuessPix" tv)) as [M|(e' & H)].
  2:{ rewrite (read_refused _ _ _ e' H). split.
      - intros [K|[M _]]; [f_equal; eapply refused_det; eauto|destruct (refused_met _ _ H M)].
      - intros [= ->]. auto. }
  destruct (read_met _ _ M) as (t & D). rewrite (read_ok _ _ _ _ D).
  assert (P : (0 < s_radius t)%R /\ 0 < s_sub t /\ 0 < s_steps t /\ 0 < s_iter t) by (repeat split; apply D). destruct P as (P1 & P2 & P3 & P4).
  assert (A : has_reals tv "probeRotVecDeg" (s_angles t)) by apply D.
  destruct (or_frame (has_reals tv "probeRotVecDeg" []) (frame img) e) as [W1 W2].
  destruct (s_angles t) as [|a l] eqn:EA.
  - split; [intros [K|[_ K]]; [destruct (refused_met _ _ K M)|destruct (W1 A K)]|].
    pose proof (sep_found lstsq O (fun s => roi_cost img (s_radius t) (s_sub t) [] s xo yo)
      (fun _ => FocalFit.masked_sum (afull (nr img) (nc img) 0%R) img) (s_steps t) (s_step t) (fun _ => eq_refl) P3 (s_iter t) (s_sep t) P4) as Q.
    intros E. rewrite E in Q. auto.
  - assert (N : ~ has_reals tv "probeRotVecDeg" []) by (intros K; pose proof (reals_det _ _ _ _ A K); discriminate).
    specialize (W2 N). rewrite W2. destruct (met_or (frame img)) as [F|(e' & H)].
    + split; [intros [K|[_ K]]; [destruct (refused_met _ _ K M)|destruct (refused_met _ _ K F)]|]. apply frame_met in F as [Hc Hr].
      destruct (sep_ok lstsq img xo yo tv t O D Hc Hr) as (G & _ & Q). rewrite sep_read, (read_ok _ _ _ _ D), EA in Q. intros E. rewrite E in Q. auto.
    + assert (E : sep_loop lstsq (fun s => roi_cost img (s_radius t) (s_sub t) (a :: l) s xo yo) (s_steps t) (s_step t) (1 <? s_iter t) (Z.to_nat (s_iter t)) (s_sep t) = Err e').
      { replace (Z.to_nat (s_iter t)) with (S (Z.to_nat (s_iter t - 1))) by lia. cbn [sep_loop].
        replace (Z.to_nat (s_steps t)) with (S (Z.to_nat (s_steps t - 1))) by lia. cbn [fill_vec].
        rewrite (cost_frame _ _ _ _ _ _ _ _ e') by auto. reflexivity. }
      rewrite E. split; [intros [K|[_ K]]; [destruct (refused_met _ _ K M)|f_equal; eapply refused_det; eauto]|]. intros [= ->]. auto.
Qed.

(** ** Mirror registration *)
Lemma value_step {A B} (m : res A) (K : A -> res B) (P : Prop) rest e : (forall a, m = Ok a -> P) -> (P -> exists a, m = Ok a) ->
  (forall a, m = Ok a -> (K a = Err e <-> refused rest e)) -> bind (value_error m) K = Err e <-> refused ((P, ValueError) :: rest) e.
Proof.
  intros H1 H2 H3. apply step.
  - intros a E. apply (H1 a). destruct m; [exact E|discriminate].
  - intros e' E. destruct m as [a|e0]; [discriminate|]. injection E as <-. split; [|auto]. intros Y. destruct (H2 Y). discriminate.
  - intros a E. apply H3. destruct m; [exact E|discriminate].
Qed.
Lemma real_v_step {B} v k x (K : R -> res B) rest e : has v k x -> (forall r, has_real v k r -> (K r = Err e <-> refused rest e)) ->
  bind (real_v x) K = Err e <-> refused ((a_real v k, ValueError) :: rest) e.
Proof.
  intros Hx H. apply value_step.
  - intros r E. exists r, x. split; [auto|apply real_ok; auto].
  - intros (r & y & Hy & I). exists r. rewrite (has_det _ _ _ _ Hy Hx) in I. apply real_ok; auto.
  - intros r E. apply H. exists x. split; [auto|apply real_ok; auto].
Qed.
Lemma positive_v_step {B} v k x (K : R -> res B) rest e : has v k x -> (forall r, has_real v k r -> (0 < r)%R -> (K r = Err e <-> refused rest e)) ->
  bind (positive_v x) K = Err e <-> refused ((a_positive v k, ValueError) :: rest) e.
Proof.
  intros Hx H. apply value_step.
  - intros r E. apply positive_ok in E. exists r. split; [exists x; tauto|tauto].
  - intros (r & (y & Hy & I) & P). exists r. rewrite (has_det _ _ _ _ Hy Hx) in I. apply positive_ok; auto.
  - intros r E. apply positive_ok in E. apply H; [exists x; tauto|tauto].
Qed.
Lemma count_v_step {B} v k x (K : Z -> res B) rest e : has v k x -> (forall z, has_int v k z -> 0 < z -> (K z = Err e <-> refused rest e)) ->
  bind (positive_int_v x) K = Err e <-> refused ((a_count v k, ValueError) :: rest) e.
Proof.
  intros Hx H. apply value_step.
  - intros r E. apply int_ok in E. exists r. split; [exists x; tauto|tauto].
  - intros (r & (y & Hy & I) & P). exists r. rewrite (has_det _ _ _ _ Hy Hx) in I. apply int_ok; auto.
  - intros r E. apply int_ok in E. apply H; [exists x; tauto|tauto].
Qed.
Lemma shrink_check v k s : has_real v k s -> negb (Rltb 1 s) = true <-> at_most_one v k.
Proof.
  intros H. rewrite radii_ok. split; [exists s; auto|]. intros (r & G & L). rewrite (real_det _ _ _ _ H G). auto.
Qed.
Lemma fit_refused v e : read_fit_params v = Err e <-> refused (fit_needs v) e.
Proof.
  unfold fit_needs, keys. cbn [app map]. unfold read_fit_params.
  apply first_item. intros D ? ?. do 7 (apply (item_step v _ _ _ _ D); intros ? ?).
  eapply count_v_step; [eassumption|intros ? ? ?]. eapply real_v_step; [eassumption|intros ? ?].
  eapply count_v_step; [eassumption|intros ? ? ?]. eapply count_v_step; [eassumption|intros ? ? ?].
  eapply positive_v_step; [eassumption|intros ? ? ?]. apply check_step; [apply shrink_check; auto|]. intros _.
  eapply real_v_step; [eassumption|intros ? ?].
  eapply count_v_step; [eassumption|intros ? ? ?]. eapply count_v_step; [eassumption|intros ? ? ?]. eapply not_err. reflexivity.
Qed.
Definition scale_file {A} (fitv : yval) (K : R -> Z -> Z -> R -> res A) : res A :=
  do m_ <- item fitv "maxDeltaScaleFac";
  do n_ <- item fitv "nScale";
  do k_ <- item fitv "nIter";
  do s_ <- item fitv "shrinkFac";
  do m <- real_v m_;
  do n <- positive_int_v n_;
  do k <- positive_int_v k_;
  do s <- positive_v s_;
  check negb (Rltb 1 s) else ValueError;
  K m n k s.
Lemma scale_refused v e : scale_file v (fun _ _ _ _ => Ok tt) = Err e <-> refused (scale_needs v) e.
Proof.
  unfold scale_needs, keys. cbn [app map]. unfold scale_file.
  apply first_item. intros D ? ?. do 3 (apply (item_step v _ _ _ _ D); intros ? ?).
  eapply real_v_step; [eassumption|intros ? ?]. eapply count_v_step; [eassumption|intros ? ? ?]. eapply count_v_step; [eassumption|intros ? ? ?].
  eapply positive_v_step; [eassumption|intros ? ? ?]. apply check_step; [apply shrink_check; auto|]. intros _. eapply not_err. reflexivity.
Qed.
Lemma maps_refused amp0 ph0 amp1 ph1 usable dm dV lam e : check_maps amp0 ph0 amp1 ph1 usable dm dV lam = Err e <-> refused (map_needs amp0 ph0 amp1 ph1 usable dm dV lam) e.
Proof.
  assert (S' : forall a b : arr R, same_shape a b = true <-> nr b = nr a /\ nc b = nc a).
  { intros a b. unfold same_shape. rewrite andb_true_iff, !Z.eqb_eq. intuition. }
  unfold map_needs. cbn [map]. unfold check_maps.
  do 4 (apply check_step; [apply S'|intros _]).
  apply check_step; [rewrite andb_true_iff, orb_true_iff, Z.ltb_lt, !Z.eqb_eq; lia|intros _].
  apply check_step; [apply Z.eqb_eq|intros _].
  rewrite refused_iff, refused_nil. destruct (Rltb 0 lam) eqn:E; cbn [guard].
  - apply FitsP.Rltb_iff in E. split; [discriminate|tauto].
  - apply FitsP.Rltb_false in E. split; [intros [= <-]; left; split; [lra|auto]|intros [[_ ->]|[_ []]]; auto].
Qed.
Lemma path_iff v l x : at_path v l x <-> match l with [] => x = v | k :: l' => exists y, has v k y /\ at_path y l' x end.
Proof.
  split; [destruct 1; eauto|]. destruct l; [intros ->; constructor|]. intros (y & A & B). econstructor; eauto.
Qed.
Lemma registration_refused v dm e : registration_of v dm = Err e <-> refused (registration_needs v dm) e.
Proof.
  unfold registration_needs, registration_of. cbv zeta. set (k := if dm =? 1 then "DM1" else "DM2").
  assert (Q1 : (exists x, at_path v ["dms"] x) <-> present v "dms").
  { unfold present. split; intros (x & H); exists x.
    - apply path_iff in H as (y & A & B). inversion B; subst; auto.
    - econstructor; [eauto|constructor]. }
  assert (C2 : forall (P P' : Prop) e0 l l', (P <-> P') -> (P -> (refused l e <-> refused l' e)) -> refused ((P, e0) :: l) e <-> refused ((P', e0) :: l') e).
  { intros P P' e0 l l' A B. rewrite !refused_iff. tauto. }
  transitivity (refused ((dictionary v, TypeError) :: (present v "dms", KeyError) ::
    [(exists d, at_path v ["dms"] (YDict d), TypeError); (exists x, at_path v ["dms"; k] x, KeyError);
     (exists d, at_path v ["dms"; k] (YDict d), TypeError); (exists x, at_path v ["dms"; k; "registration"] x, KeyError)]) e).
  2:{ apply C2; [tauto|]. intros _. apply C2; [symmetry; auto|]. tauto. }
  apply first_item. intros D dms Hd.
  assert (P2 : forall l x, at_path v ("dms" :: l) x <-> at_path dms l x).
  { intros l x. rewrite path_iff. split; [intros (y & A & B); rewrite (has_det _ _ _ _ Hd A); auto|intros; eexists; eauto]. }
  transitivity (refused ((dictionary dms, TypeError) :: (present dms k, KeyError) ::
    [(exists d, at_path v ["dms"; k] (YDict d), TypeError); (exists x, at_path v ["dms"; k; "registration"] x, KeyError)]) e).
  2:{ apply C2. { unfold dictionary. split; intros (d & H); exists d; [rewrite P2, path_iff; auto|rewrite P2, path_iff in H; auto]. }
      intros _. apply C2; [|tauto]. unfold present. split; intros (x & H); exists x.
      - rewrite P2. econstructor; [eauto|constructor].
      - rewrite P2, path_iff in H. destruct H as (y & A & B). inversion B; subst; auto. }
  apply first_item. intros _ y Hy.
  assert (P3 : forall l x, at_path v ("dms" :: k :: l) x <-> at_path y l x).
  { intros l x. rewrite P2, path_iff. split; [intros (z & A & B); rewrite (has_det _ _ _ _ Hy A); auto|intros; eexists; eauto]. }
  transitivity (refused ((dictionary y, TypeError) :: (present y "registration", KeyError) :: []) e).
  2:{ apply C2. { unfold dictionary. split; intros (d & H); exists d; [rewrite P3, path_iff; auto|rewrite P3, path_iff in H; auto]. }
      intros _. apply C2; [|tauto]. unfold present. split; intros (x & H); exists x.
      - rewrite P3. econstructor; [eauto|constructor].
      - rewrite P3, path_iff in H. destruct H as (u & A & B). inversion B; subst; auto. }
  apply first_item. intros _ z Hz. eapply not_err. reflexivity.
Qed.
Lemma bind_app {A B} (m : res A) (K : A -> res B) l l' e : (forall e', m = Err e' <-> refused l e') ->
  (forall a, m = Ok a -> (refused l' e -> K a = Err e)) -> refused (l ++ l') e -> bind m K = Err e.
Proof.
  intros H1 H2. rewrite refused_app. intros [H|[M H]].
  - apply H1 in H. rewrite H. reflexivity.
  - destruct m as [a|e'] eqn:E; cbn [bind]; [apply H2; auto|]. exfalso. eapply refused_met; [apply H1; reflexivity|exact M].
Qed.
Lemma registration_translation_refused lstsq lstsq1 ops getdata amp0 ph0 amp1 ph1 usable dm dV xo yo dmv fitv lam e :
  refused (map_needs amp0 ph0 amp1 ph1 usable dm dV lam ++ fit_needs fitv ++ registration_needs dmv dm) e ->
  calc_translation_clocking lstsq lstsq1 ops getdata amp0 ph0 amp1 ph1 usable dm dV xo yo dmv fitv lam = Err e.
Proof.
  unfold calc_translation_clocking. apply bind_app; [intros; apply maps_refused|]. intros _ _.
  apply bind_app; [intros; apply fit_refused|]. intros p _. intros H. apply registration_refused in H. rewrite H. reflexivity.
Qed.
Lemma scale_file_err {A} v (K : R -> Z -> Z -> R -> res A) e : scale_file v (fun _ _ _ _ => Ok tt) = Err e -> scale_file v K = Err e.
Proof.
  unfold scale_file.
  do 9 (match goal with |- bind ?m _ = _ -> _ => destruct m; cbn [bind]; [|intros [= ->]; reflexivity] end). discriminate.
Qed.
Lemma registration_scale_refused lstsq ops getdata amp0 ph0 amp1 ph1 usable dm dV dmv fitv lam xo yo cl e :
  refused (map_needs amp0 ph0 amp1 ph1 usable dm dV lam ++ scale_needs fitv ++ registration_needs dmv dm) e ->
  calc_scale lstsq ops getdata amp0 ph0 amp1 ph1 usable dm dV dmv fitv lam xo yo cl = Err e.
Proof.
  unfold calc_scale. apply bind_app; [intros; apply maps_refused|]. intros _ _. rewrite refused_app. intros [H|[M H]].
  - apply scale_refused in H.
    match goal with |- ?l = _ => match l with context [registration_of] => idtac end end.
    exact (scale_file_err _ (fun m n k s => _) e H).
  - unfold met, scale_needs, keys in M. cbn [app map] in M. rewrite !Forall_cons_iff in M. cbn [fst] in M.
    destruct M as (_ & _ & _ & _ & _ & (m & (x1 & H1 & I1)) & (n & (x2 & H2 & I2) & P2) & (k & (x3 & H3 & I3) & P3) & (s & (x4 & H4 & I4) & P4) & L & _).
    rewrite (proj2 (item_has _ _ _) H1), (proj2 (item_has _ _ _) H2), (proj2 (item_has _ _ _) H3), (proj2 (item_has _ _ _) H4). cbn [bind].
    unfold real_v, positive_int_v, positive_v.
    rewrite (proj2 (real_ok x1 m) I1), (proj2 (int_ok x2 n) (conj I2 P2)), (proj2 (int_ok x3 k) (conj I3 P3)), (proj2 (positive_ok x4 s) (conj I4 P4)). cbn [value_error bind].
    assert (G : negb (Rltb 1 s) = true) by (apply (shrink_check fitv "shrinkFac"); [exists x4; auto|auto]). rewrite G. cbn [guard bind].
    apply registration_refused in H. rewrite H. reflexivity.
Qed.
Lemma exactly {A} (m : res A) l : (forall e, m = Err e <-> refused l e) -> (forall e, m = Err e <-> refused l e) /\ ((exists a, m = Ok a) <-> met l).
Proof.
  intros H. split; [auto|]. destruct (met_or l) as [M|(e & K)].
  - split; [auto|]. intros _. destruct m as [a|e]; [eauto|]. destruct (refused_met l e); [apply H; auto|auto].
  - split; [|intros M; destruct (refused_met _ _ K M)]. intros (a & E). apply H in K. congruence.
Qed.
