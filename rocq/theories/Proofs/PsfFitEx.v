(** A concrete case for the psffit theorems. *)
From Coq Require Import ZArith Bool List String Reals Lra Lia.
From Flocq Require Import Core.
From Coquelicot Require Import Complex.
From Verif.Base Require Import Py Arr Vec Sums CSum.
From Verif.Model Require Import Dm Yaml PsfFit.
From Verif.Spec Require Import ConjugateSpec PsfFitSpec.
From Verif.Proofs Require Import PsfFitP ConjugateEx.
Import ListNotations.
Open Scope string_scope.
Open Scope Z_scope.

(** A star at the middle of a 4 by 5 image, and twice as bright one row down and one column left. *)
Definition star (a b : Z) (v : R) : arr R := Arr 4 5 (fun i j => if (i =? a) && (j =? b) then v else 0%R).
Definition cfg_ex : yval := YDict [("upsample_factor", YReal 200); ("pad_factor", YReal (3 / 2)); ("amp_thresh", YReal (/ 5))].
Definition k_ex := {| upsample_factor := 200; pad_factor := (3 / 2); amp_thresh := (/ 5) |}%R.
Lemma cfg_ok : read_config cfg_ex = Ok k_ex.
Proof. reflexivity. Qed.
Lemma star_dft a b v k l : 0 <= a < 4 -> 0 <= b < 5 -> v <> 0%R -> dft (star a b v) k l <> RtoC 0.
Proof.
  intros Ha Hb Hv. unfold dft. cbn [nr nc star at2].
  rewrite (csum2_ext _ (fun i j => if (i =? a) && (j =? b) then RtoC v * cis (- 2 * PI * (IZR (i * k) / 4 + IZR (j * l) / 5)) else RtoC 0)%C).
  - rewrite (csum2_delta (fun i j => RtoC v * cis (- 2 * PI * (IZR (i * k) / 4 + IZR (j * l) / 5)))%C) by auto. intros E.
    apply (f_equal Cmod) in E. rewrite Cmod_mult, cis_unit, !Cmod_R, Rabs_R0 in E. pose proof (Rabs_no_R0 v Hv). lra.
  - intros i j _ _. destruct ((i =? a) && (j =? b)); [reflexivity|]. ring.
Qed.
Lemma star_varies : varies (star 1 2 3).
Proof. split; exists 0, 0; cbn [star nr nc]; (split; [Z.div_mod_to_equations; lia|]); (split; [Z.div_mod_to_equations; lia|]); split; apply star_dft; lia || lra. Qed.
Lemma star_shift : zero_fill_shift (star 1 2 3) 2 1 (-1) (star 2 1 6).
Proof.
  split; [reflexivity|]. split; [reflexivity|]. intros i j [Hi Hj]. cbn [nr nc star at2] in *. unfold in_arrb. cbn [nr nc star].
  arr_bool; try lra; exfalso; lia.
Qed.
Lemma star_frame : stays_in_frame (star 1 2 3) 1 (-1).
Proof.
  intros i j [Hi Hj] H. cbn [nr nc star at2] in *. unfold in_arr in H. cbn [nr nc star] in H. arr_bool; auto. exfalso. apply H. lia.
Qed.
Lemma psffit_ex : psffit (sp_shift scipy_ref) (star 1 2 3) (star 2 1 6) cfg_ex = Ok ((IZR 1, IZR (-1)), Some 2%R).
Proof.
  apply (psffit_recovers _ _ _ _ k_ex); try exact cfg_ok; cbn [k_ex upsample_factor pad_factor amp_thresh nr nc star]; try lra; try lia.
  - apply scipy_ref_ok.
  - exists 200. split; [lia|reflexivity].
  - exact star_varies.
  - exact star_shift.
  - exact star_frame.
  - exists 2, 1. split; [split; cbn; lia|cbn; lra].
Qed.
