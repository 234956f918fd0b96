(** A largest step of nan in the focal-mask measurements. *)
From Coq Require Import ZArith Reals Bool List Lia Lra.
From Flocq Require Import Core BinarySingleNaN.
From Verif.Base Require Import Py Arr Sums F64.
From Verif.Model Require Import ShapesF FocalFitF.
From Verif.Spec Require Import FocalFitFSpec.
Import ListNotations.

Lemma bound_open (x v : f64) : fisnan v = true \/ v = B754_infinity false -> bound_value_f x v = Ok x.
Proof. intros [H| ->]; [destruct v; try discriminate|]; destruct x as [s|[]| |[] m e b]; reflexivity. Qed.
Lemma positive_open (v : f64) e : fisnan v = true \/ v = B754_infinity false -> positive_f v e = Ok tt.
Proof. intros [H| ->]; [destruct v; try discriminate|]; reflexivity. Qed.
Lemma bind_eq {A B} (m : res A) (k k' : A -> res B) : (forall x, k x = k' x) -> bind m k = bind m k'.
Proof. intros H. destruct m; cbn [bind]; auto. Qed.
Lemma bind_both {A B} (m m' : res A) (k k' : A -> res B) x : m = Ok x -> m' = Ok x -> k x = k' x -> bind m k = bind m' k'.
Proof. intros -> -> H. exact H. Qed.
Ltac same := repeat match goal with |- bind (bound_value_f _ _) _ = _ => fail 1 | _ => apply bind_eq; intro end.
Lemma spots_no_limit np_sum fcos fsin a rot xo yo t v target :
  fisnan v = true -> calc_offset_from_spots_f np_sum fcos fsin a rot xo yo (with_limit t v) target =
    calc_offset_from_spots_f np_sum fcos fsin a rot xo yo (with_limit t (B754_infinity false)) target.
Proof.
  intros H. unfold calc_offset_from_spots_f, with_limit. cbn [f_sep f_radius f_ns f_max f_c1 f_c2 f_power f_inside].
  do 4 (apply bind_eq; intro). apply (bind_both _ _ _ _ tt); [apply positive_open; auto|apply positive_open; auto|]. same.
  eapply bind_both; [apply bound_open; auto|apply bound_open; auto|reflexivity].
Qed.
Lemma bowtie_no_limit np_sum fcos fsin a xo yo t v :
  fisnan v = true -> calc_bowtie_offsets_f np_sum fcos fsin a xo yo (with_limit_g t v) =
    calc_bowtie_offsets_f np_sum fcos fsin a xo yo (with_limit_g t (B754_infinity false)).
Proof.
  intros H. unfold calc_bowtie_offsets_f, with_limit_g. cbn [g_sep g_rot g_extra g_radius g_ns g_max g_c1x g_c2x g_c1y g_c2y g_tx g_ty].
  do 3 (apply bind_eq; intro). apply (bind_both _ _ _ _ tt); [apply positive_open; auto|apply positive_open; auto|]. same.
  do 2 (eapply bind_both; [apply bound_open; auto|apply bound_open; auto|]). reflexivity.
Qed.
