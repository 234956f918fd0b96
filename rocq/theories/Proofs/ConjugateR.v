(** Refusals of the dead actuator step and the passes of the smoothing in flatten. *)
From Coq Require Import ZArith Bool List Reals Lra Lia.
From Flocq Require Import Core.
From Verif.Base Require Import Py Arr Vec Sums Lstsq.
From Verif.Model Require Import PadCrop Math Noll Fits Fresnel Dm Conjugate.
From Verif.Spec Require Import MathSpec ConjugateSpec RefuseSpec.
From Verif.Proofs Require Import DarkHoleP PadCropP ConjugateP RefuseP.
Import ListNotations.
Local Open Scope Z_scope.

Lemma dead_step {B} n tie (k : arr R -> res B) rest e : (forall d, nr tie = n -> nc tie = n -> (k d = Err e <-> refused rest e)) ->
  bind (dead_map n tie) k = Err e <-> refused ((nr tie = n /\ nc tie = n, IndexError) :: rest) e.
Proof.
  intros H. apply step.
  - intros x E. unfold dead_map in E. apply guard_ok in E as [G _]. apply andb_true_iff in G as [G1 G2]. apply Z.eqb_eq in G1, G2. auto.
  - intros e' E. unfold dead_map, guard in E. destruct ((nr tie =? n) && (nc tie =? n)) eqn:G; [discriminate|]. injection E as <-. split; [|reflexivity].
    intros [A C]. apply Z.eqb_eq in A, C. rewrite A, C in G. discriminate.
  - intros x E. unfold dead_map in E. apply guard_ok in E as [G _]. apply andb_true_iff in G as [G1 G2]. apply Z.eqb_eq in G1, G2. auto.
Qed.
Lemma bc_iff a b : (a =? b) || (a =? 1) = true <-> a = b \/ a = 1.
Proof. rewrite orb_true_iff, !Z.eqb_eq. reflexivity. Qed.
Lemma reassign_refused n1 n2 tie1 tie2 h1 h2 e : reassign_dead n1 n2 tie1 tie2 h1 h2 = Err e <->
  refused [(nr tie1 = n1 /\ nc tie1 = n1, IndexError); (n1 = n2 \/ n1 = 1, ValueError);
           (nr tie2 = n2 /\ nc tie2 = n2, IndexError); (n2 = n1 \/ n2 = 1, ValueError)] e.
Proof.
  unfold reassign_dead. apply dead_step. intros d1 _ _. cbv zeta. apply check_step; [apply bc_iff|]. intros _.
  apply dead_step. intros d2 _ _. apply check_step; [apply bc_iff|]. intros _. rewrite refused_nil. split; [discriminate|tauto].
Qed.

Lemma nearest_even x : rounds_half_even x (ZnearestE x).
Proof.
  split; [apply Znearest_half|]. intros H. unfold Znearest in *. pose proof (Zfloor_lb x) as L. pose proof (Zfloor_ub x) as U.
  destruct (Rcompare_spec (x - IZR (Zfloor x)) (/ 2)) as [C|C|C].
  - rewrite Rabs_pos_eq in H; lra.
  - destruct (Z.even (Zfloor x)) eqn:E; cbn [negb]; auto. rewrite Zceil_floor_neq by lra.
    rewrite Z.even_add, E. reflexivity.
  - rewrite Zceil_floor_neq in H |- * by lra. rewrite plus_IZR in H. rewrite Rabs_left1 in H; lra.
Qed.
Lemma smooth_steps ker mask half wd : forall n s out, 0 < nr s -> 0 < nc s -> smooth_loop ker mask half wd n s = Ok out ->
  exists S : nat -> arr R, S O = s /\ S n = out /\ (n <> O -> 0 < wd) /\
    forall k, (k < n)%nat -> smoothed_once ker wd mask half (S k) (S (Datatypes.S k)).
Proof.
  induction n as [|n IH]; intros s out Hr Hc H; cbn [smooth_loop] in H.
  - injection H as <-. exists (fun _ => s). repeat split; try lia.
  - apply bind_ok in H as (t & Ht & H). destruct (smooth_ok _ _ _ _ Hr Hc Ht) as [Wp (A1 & A2 & A3)]. cbn in A1, A2.
    destruct (IH (set_where mask half t) out) as (S & S0 & Sn & _ & Sk); [cbn; lia|cbn; lia|exact H|].
    exists (fun k => match k with O => s | Datatypes.S k' => S k' end). split; [reflexivity|]. split; [exact Sn|]. split; [intros _; apply lt_IZR, Wp|].
    intros [|k] Hk; [|apply Sk; lia]. rewrite S0. split; [exact A1|]. split; [exact A2|]. intros i j I. cbn [set_where at2].
    destruct (at2 mask i j); auto. apply A3. unfold in_arr in *. rewrite A1, A2. exact I.
Qed.
Lemma surface_steps ker nIter n crop cx cy phase surf : wf phase ->
  desired_surface ker true nIter n crop cx cy phase = Ok surf ->
  exists half W S, desired_surface ker false nIter n crop cx cy phase = Ok half /\ rounds_half_even (Rmax cx cy) W /\
    S O = half /\ S (Z.to_nat nIter) = surf /\ (0 < nIter -> 0 < W) /\
    forall k, (k < Z.to_nat nIter)%nat -> smoothed_once ker W crop half (S k) (S (Datatypes.S k)).
Proof.
  intros W H. unfold desired_surface in *. apply bind_ok in H. destruct H as (ph0 & E0 & H). rewrite E0. cbn [bind].
  destruct (select crop ph0) as [|v0 vs]; [discriminate|]. cbv zeta in *.
  pose proof E0 as E0'. apply pad_crop_inv in E0'; auto.
  destruct E0' as (h & w & Ehw & Hh & Hw & R1 & R2 & _). injection Ehw as <- <-.
  set (half := amap _ ph0) in *. apply smooth_steps in H; [|cbn; lia|cbn; lia]. destruct H as (S & A & C & D & E).
  exists half, (ZnearestE (Rmax cx cy)), S. split; [reflexivity|]. split; [apply nearest_even|]. split; [exact A|]. split; [exact C|].
  split; [intros P; apply D; lia|exact E].
Qed.
