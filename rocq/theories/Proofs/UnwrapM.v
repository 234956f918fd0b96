(** Masks given as numbers. *)
From Coq Require Import ZArith Bool List Reals String Lia.
From Verif.Base Require Import Py Arr.
From Verif.Model Require Import Fits Unwrap.
From Verif.Spec Require Import UnwrapSpec.
From Verif.Proofs Require Import UnwrapP UnwrapEx.
Import ListNotations.
Open Scope Z_scope.

Lemma truth_given k i j : at2 (mask_truth k) i j = true <->
  match k with MBool m => at2 m i j = true | MInt m => at2 m i j <> 0 | MFloat m => at2 m i j <> 0%R end.
Proof.
  destruct k; cbn; [tauto| |].
  - destruct (Z.eqb_spec (at2 m i j) 0); cbn; split; congruence.
  - destruct (Req_EM_T (at2 m i j) 0); split; congruence.
Qed.
Lemma any_some up small nearest phase amplitude nbin fill min_size use_mask bMask selem r :
  unwrap_segments_any up small nearest phase amplitude nbin fill min_size use_mask bMask selem = Ok r ->
  unwrap_segments up small nearest phase amplitude nbin fill min_size use_mask (option_map mask_truth bMask) selem = Ok r /\
  (selem = None -> forall k, bMask = Some k -> exists m, k = MBool m).
Proof.
  intros H. unfold unwrap_segments_any in H. destruct bMask as [[m|m|m]|], selem as [s|]; try (split; [exact H|]; try discriminate; intros; eauto; congruence).
  - split; auto. intros _ k E. injection E as <-. eauto.
  - destruct (check_inputs _ _ _ _ _); [|discriminate]. cbn in H. destruct (forallb _ _) in H; discriminate.
  - destruct (check_inputs _ _ _ _ _); discriminate.
Qed.
Lemma any_values up small : is_unwrapper up -> is_remove_small small ->
  forall nearest phase amplitude nbin fill min_size use_mask bMask selem p e,
  unwrap_segments_any up small nearest phase amplitude nbin fill min_size use_mask bMask selem = Ok (p, e) ->
  (selem = None -> forall k, bMask = Some k -> exists m, k = MBool m) /\
  same_shape p phase = true /\ same_shape e phase = true /\
  (exists m, same_shape m phase = true /\
     match bMask with
     | Some k => forall i j, in_arr phase i j -> (at2 m i j = true <->
         match k with MBool a => at2 a i j = true | MInt a => at2 a i j <> 0 | MFloat a => at2 a i j <> 0%R end)
     | None => mask_used phase amplitude nbin min_size use_mask None m
     end /\
     match selem with Some s => eroded m s e | None => e = m end) /\
  (forall i j, in_arr phase i j -> at2 e i j = false -> at2 p i j = fill) /\
  (forall i j, in_arr phase i j -> at2 e i j = true -> congruent (at2 phase i j) (at2 p i j)).
Proof.
  intros U S nearest phase amplitude nbin fill min_size use_mask bMask selem p e H. apply any_some in H as [H B].
  destruct (segments_ok up small U S nearest _ _ _ _ _ _ _ _ _ _ H) as (H1 & H2 & (m & M1 & M2 & M3) & _ & H4 & H5).
  split; auto. split; auto. split; auto. split; auto. exists m. split; auto. split; auto.
  destruct bMask as [k|]; cbn in M1; auto. subst m. intros i j _. apply truth_given.
Qed.
Lemma any_refused up small nearest phase amplitude nbin fill min_size use_mask :
  same_shape phase amplitude = true -> (forall i j, in_arr amplitude i j -> (0 <= at2 amplitude i j)%R) -> 3 <= nbin -> 0 < min_size ->
  (forall a, same_shape a phase = true -> unwrap_segments_any up small nearest phase amplitude nbin fill min_size use_mask (Some (MFloat a)) None = Err IndexError) /\
  (forall a, same_shape a phase = true -> (forall i j, in_arr a i j -> - nr phase <= at2 a i j < nr phase) ->
     unwrap_segments_any up small nearest phase amplitude nbin fill min_size use_mask (Some (MInt a)) None = Err ValueError) /\
  (forall a i j, same_shape a phase = true -> in_arr a i j -> at2 a i j < - nr phase \/ nr phase <= at2 a i j ->
     unwrap_segments_any up small nearest phase amplitude nbin fill min_size use_mask (Some (MInt a)) None = Err IndexError).
Proof.
  intros H1 H2 H3 H4.
  assert (C : forall a, same_shape a phase = true -> check_inputs phase amplitude nbin min_size (Some a) = Ok tt).
  { intros a Ha. apply check_ok. repeat split; auto. intros m E. injection E as <-. exact Ha. }
  split; [|split].
  - intros a Ha. unfold unwrap_segments_any. rewrite C by exact Ha. reflexivity.
  - intros a Ha Hv. unfold unwrap_segments_any. rewrite C by exact Ha. cbn [bind].
    replace (forallb _ _) with true; [reflexivity|]. symmetry. apply forallb_forall. intros v Hin.
    apply in_elements in Hin as (i & j & Hij & ->). specialize (Hv i j Hij). lia.
  - intros a i j Ha Hij Hv. unfold unwrap_segments_any. rewrite C by exact Ha. cbn [bind].
    replace (forallb _ _) with false; [reflexivity|]. symmetry. apply not_true_is_false. intros F.
    rewrite forallb_forall in F. specialize (F (at2 a i j)). rewrite andb_true_iff, Z.leb_le, Z.ltb_lt in F.
    apply (Z.lt_irrefl 0). assert (- nr phase <= at2 a i j < nr phase); [|lia]. apply F. apply in_elements. exists i, j. auto.
Qed.
