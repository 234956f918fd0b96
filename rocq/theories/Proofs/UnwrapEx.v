(** Concrete cases for phase unwrapping, and library functions meeting the assumptions. *)
From Coq Require Import ZArith Bool List Reals Lra Lia String ClassicalEpsilon.
From Verif.Base Require Import Py Arr.
From Verif.Model Require Import Fits Unwrap.
From Verif.Spec Require Import UnwrapSpec.
From Verif.Proofs Require Import FitsP UnwrapP.
Import ListNotations.
Open Scope Z_scope.

Definition unwrap_ref : unwrap_fun := fun phase out =>
  match excluded_middle_informative (exists psi, gentle (amap negb out) psi /\ wrapped_of (amap negb out) psi phase) with
  | left H => Arr (nr phase) (nc phase) (proj1_sig (constructive_indefinite_description _ H))
  | right _ => phase
  end.
Lemma unwrap_ref_ok : is_unwrapper unwrap_ref.
Proof.
  intros phase out S. cbv zeta. unfold unwrap_ref. destruct excluded_middle_informative as [H|H].
  - destruct (constructive_indefinite_description _ H) as [psi [G W]]. cbn [proj1_sig nr nc at2]. repeat split; auto.
    intros i j O. apply congruent_sym, W. auto.
  - repeat split; auto.
    + intros. apply congruent_refl.
    + intros psi G W. destruct H. eauto.
Qed.
Definition small_ref : small_fun := fun m k => Arr (nr m) (nc m) (fun i j =>
  if excluded_middle_informative (at2 m i j = true /\ large m k (i, j)) then true else false).
Lemma small_ref_ok : is_remove_small small_ref.
Proof.
  intros m k. split; [auto|]. split; [auto|]. intros i j I. cbn [small_ref at2]. destruct excluded_middle_informative as [H|H]; split; auto; try discriminate.
Qed.
Definition nearest_ref : nearest_fun := fun m a i j =>
  match excluded_middle_informative (exists p, nearest_to m i j p) with
  | left H => let p := proj1_sig (constructive_indefinite_description _ H) in at2 a (fst p) (snd p)
  | right _ => 0%R
  end.
Lemma dist2_nonneg p q : 0 <= dist2 p q.
Proof. unfold dist2. pose proof (Z.square_nonneg (fst p - fst q)). pose proof (Z.square_nonneg (snd p - snd q)). nia. Qed.
Lemma nearest_exists m i j : (exists p, on m p) -> exists p, nearest_to m i j p.
Proof.
  intros [p O]. remember (Z.to_nat (dist2 (i, j) p)) as n eqn:En. revert p O En.
  induction n as [n IH] using (well_founded_induction lt_wf). intros p O ->.
  destruct (excluded_middle_informative (exists q, on m q /\ dist2 (i, j) q < dist2 (i, j) p)) as [(q & Oq & L)|N].
  - apply (IH (Z.to_nat (dist2 (i, j) q))) with q; auto. pose proof (dist2_nonneg (i, j) q). lia.
  - exists p. split; auto. intros q Oq. apply Z.nlt_ge. intro L. apply N. eauto.
Qed.
Lemma nearest_ref_ok : is_nearest nearest_ref.
Proof.
  intros m a i j _ Ne _. unfold nearest_ref. destruct excluded_middle_informative as [H|H].
  - destruct (constructive_indefinite_description _ H) as [p P]. cbn [proj1_sig]. eauto.
  - destruct H. apply nearest_exists. auto.
Qed.

(** A ramp of 2 radians a pixel, wrapped. *)
Definition ramp : arr R := Arr 1 4 (fun _ j => if j <? 2 then 2 * IZR j else 2 * IZR j - 2 * PI)%R.
Definition ones14 : arr R := Arr 1 4 (fun _ _ => 1%R).
Definition all14 : arr bool := Arr 1 4 (fun _ _ => true).
Lemma PI_bounds : (3 < PI < 4)%R.
Proof.
  split.
  - pose proof PI2_3_2. lra.
  - pose proof PI_4. destruct (Rle_lt_or_eq_dec _ _ H); auto. exfalso.
    pose proof (PI_ineq 1) as [_ B]. unfold tg_alt, PI_tg in B. cbn in B. lra.
Qed.
Lemma ramp_wrapped : wrapped_of all14 (fun _ j => 2 * IZR j)%R ramp.
Proof.
  pose proof PI_bounds. intros i j [[I J] _]. cbn in I, J.
  assert (j = 0 \/ j = 1 \/ j = 2 \/ j = 3) as [-> | [-> | [-> | ->]]] by lia; cbn; (split; [|apply Rabs_le; lra]).
  - exists 0. cbn. lra.
  - exists 0. cbn. lra.
  - exists (-1). cbn. lra.
  - exists (-1). cbn. lra.
Qed.
Lemma ramp_gentle : gentle all14 (fun _ j => 2 * IZR j)%R.
Proof.
  pose proof PI_bounds. intros [i j] [i' j'] [[I J] _] [[I' J'] _] A. unfold adjacent in A. cbn in *.
  assert (j' = j + 1 \/ j = j' + 1) as [-> | ->] by lia; rewrite plus_IZR; apply Rabs_def1; lra.
Qed.
Lemma ramp_ex up small : is_unwrapper up -> is_remove_small small -> forall use fill,
  exists p k, unwrap up small ramp ones14 21 fill 64 use (Some all14) = Ok (p, all14) /\
    forall j, 0 <= j < 4 -> at2 p 0 j = (2 * IZR j + 2 * PI * IZR k)%R.
Proof.
  intros U S use fill. destruct (proj2 (unwrap_accepts up small ramp ones14 21 fill 64 use (Some all14))) as [[p m] E].
  - split; [reflexivity|]. split; [intros; cbn; lra|]. split; [lia|]. split; [lia|]. split; [|discriminate].
    intros m H. injection H as <-. reflexivity.
  - pose proof (unwrap_ok up small U S _ _ _ _ _ _ _ _ _ E) as (_ & _ & M & _). cbn in M. subst m.
    destruct (unwrap_exact up small U S _ _ _ _ _ _ _ _ _ _ E ramp_gentle ramp_wrapped (0, 0)) as [k K]; [split; cbn; auto; split; cbn; lia|].
    exists p, k. split; auto. intros j Hj. specialize (K (0, j)). cbn [fst snd] in K. apply K. apply whole_joined; auto; split; cbn; lia.
Qed.
(** Two segments with a gap between. *)
Definition gap15 : arr bool := Arr 1 5 (fun _ j => negb (j =? 2)).
Definition seg15 : arr R := Arr 1 5 (fun _ j => if j <? 2 then 2 * IZR j else if j =? 2 then 1 else 1 + IZR j - 2 * PI)%R.
Definition true15 (i j : Z) : R := if j <? 2 then (2 * IZR j)%R else (1 + IZR j)%R.
Definition ones15 : arr R := Arr 1 5 (fun _ _ => 1%R).
Lemma seg_wrapped : wrapped_of gap15 true15 seg15.
Proof.
  pose proof PI_bounds. intros i j [[I J] O]. cbn in I, J.
  assert (j = 0 \/ j = 1 \/ j = 2 \/ j = 3 \/ j = 4) as [-> | [-> | [-> | [-> | ->]]]] by lia; cbn in O; try discriminate; cbn; (split; [|apply Rabs_le; lra]).
  - exists 0. cbn. lra.
  - exists 0. cbn. lra.
  - exists (-1). cbn. lra.
  - exists (-1). cbn. lra.
Qed.
Lemma gap_on i j : on gap15 (i, j) <-> i = 0 /\ (j = 0 \/ j = 1 \/ j = 3 \/ j = 4).
Proof.
  unfold on, in_arr. cbn. destruct (Z.eqb_spec j 2); cbn; lia || (split; [intros [_ H]; discriminate|lia]).
Qed.
Lemma gap_nearest j p : 0 <= j < 5 -> nearest_to gap15 0 j p -> fst p = 0 /\ (if j =? 2 then snd p = 1 \/ snd p = 3 else snd p = j).
Proof.
  intros Hj [O H]. destruct p as [a b]. apply gap_on in O as [-> Hb]. cbn [fst snd]. split; auto. destruct (Z.eqb_spec j 2) as [-> |Hn].
  - assert (on gap15 (0, 1)) as O1 by (apply gap_on; auto). specialize (H _ O1). unfold dist2 in H. cbn [fst snd] in H. nia.
  - assert (on gap15 (0, j)) as O1 by (apply gap_on; lia). specialize (H _ O1). unfold dist2 in H. cbn [fst snd] in H.
    replace (j - j) with 0 in H by lia. nia.
Qed.
Lemma seg_gentle : gentle_filled gap15 true15.
Proof.
  pose proof PI_bounds as B. intros [i j] [i' j'] p q [I J] [I' J'] A P Q. unfold adjacent in A. cbn in I, J, I', J', A, P, Q.
  assert (i = 0) as -> by lia. assert (i' = 0) as -> by lia. pose proof (proj1 P) as OP. pose proof (proj1 Q) as OQ.
  apply gap_nearest in P; auto. apply gap_nearest in Q; auto. destruct p as [a1 a], q as [b1 b]. cbn [fst snd] in *.
  destruct P as [-> P], Q as [-> Q]. apply gap_on in OP as [_ OP]. apply gap_on in OQ as [_ OQ].
  assert (D : Z.abs (a - b) <= 2) by (destruct (Z.eqb_spec j 2), (Z.eqb_spec j' 2); lia). clear - B OP OQ D.
  destruct OP as [-> | [-> | [-> | ->]]]; destruct OQ as [-> | [-> | [-> | ->]]]; cbn in D; try lia; cbn; apply Rabs_def1; lra.
Qed.
Lemma seg_defined up small nearest : is_remove_small small -> forall use e,
  unwrap_segments up small nearest seg15 ones15 21 7 64 use (Some gap15) None <> Err e.
Proof.
  intros S use e E. apply segments_rejects in E; auto. destruct E as [[_ E]|[[_ E]|[_ (s & E & _)]]]; [| |discriminate].
  - destruct E as [E|[(i & j & _ & L)|[E|[E|(m & E & Sh)]]]]; [discriminate E|cbn in L; lra|lia|lia|]. injection E as Em. rewrite <- Em in Sh. discriminate Sh.
  - destruct E as [E|[(E & _)|(m & d & M & _ & D & Z0)]]; [lia|discriminate E|]. unfold mask_used in M. rewrite D, M in Z0.
    specialize (Z0 0 0 ltac:(split; cbn; lia)). discriminate Z0.
Qed.
Lemma seg_ex up small nearest : is_unwrapper up -> is_remove_small small -> is_nearest nearest -> forall use,
  exists p k, unwrap_segments up small nearest seg15 ones15 21 7 64 use (Some gap15) None = Ok (p, gap15) /\ at2 p 0 2 = 7%R /\
    forall j, 0 <= j < 5 -> j <> 2 -> at2 p 0 j = ((if j <? 2 then 2 * IZR j else 1 + IZR j) + 2 * PI * IZR k)%R.
Proof.
  intros U S N use. destruct (unwrap_segments up small nearest seg15 ones15 21 7 64 use (Some gap15) None) as [[p e]|er] eqn:E.
  - destruct (segments_ok up small U S nearest _ _ _ _ _ _ _ _ _ _ E) as (_ & _ & (m & M & _ & Ee) & _ & F & _).
    unfold mask_used in M. rewrite M in Ee. clear M. rewrite Ee in *. clear Ee e m.
    destruct (segments_exact up small U S nearest N _ _ _ _ _ _ _ _ _ _ true15 E seg_gentle seg_wrapped) as [k K].
    exists p, k. split; [reflexivity|]. split; [apply F; [split; cbn; lia|reflexivity]|]. intros j Hj Hn. apply (K 0 j). apply gap_on. lia.
  - exfalso. destruct (seg_defined up small nearest S use er E).
Qed.
