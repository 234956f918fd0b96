(** Proofs about inputs refused by psffit, get_fp and flatten. *)
From Coq Require Import ZArith Bool List String Reals Lra Lia.
From Flocq Require Import Core.Raux.
From Coquelicot Require Import Complex.
From Verif.Base Require Import Py Arr.
From Verif.Model Require Import Fits Yaml Fresnel PsfFit Conjugate.
From Verif.Spec Require Import DarkHoleSpec RefuseSpec.
From Verif.Proofs Require Import FitsP FresnelP DarkHoleP RefuseP.
Import ListNotations.
Open Scope string_scope.
Open Scope Z_scope.

(** ** Settings of psffit *)
Lemma prefix_iff k s : prefix k s = true <-> exists b, s = (k ++ b)%string.
Proof.
  revert s. induction k as [|c k IH]; intros s; cbn [prefix append].
  - destruct s; (split; [intros _; eexists; reflexivity|auto]).
  - destruct s as [|c' s]; [split; [discriminate|intros (b & H); discriminate]|].
    destruct (Ascii.ascii_dec c c') as [<-|N].
    + cbn [prefix]. destruct (Ascii.ascii_dec c c) as [_|N]; [|contradiction]. rewrite IH. split; intros (b & H); exists b; [rewrite H; auto|injection H; auto].
    + cbn [prefix]. destruct (Ascii.ascii_dec c c') as [Q|_]; [contradiction|]. split; [discriminate|]. intros (b & H). injection H. congruence.
Qed.
Lemma index_iff k s : (exists m, String.index 0 k s = Some m) <-> exists a b, s = (a ++ k ++ b)%string.
Proof.
  induction s as [|c s IH].
  - cbn [String.index]. destruct k as [|x k].
    + split; [exists "", ""; auto|eauto].
    + split; [intros (m & H); discriminate|intros (a & b & H); destruct a; discriminate].
  - cbn [String.index]. destruct (prefix k (String c s)) eqn:P.
    + split; [|eauto]. intros _. apply prefix_iff in P as (b & H). exists "", b. auto.
    + assert (Q : (exists m, match String.index 0 k s with Some n => Some (S n) | None => None end = Some m) <-> exists m, String.index 0 k s = Some m).
      { destruct (String.index 0 k s); split; intros (m & H); eauto; discriminate. }
      rewrite Q, IH. split.
      * intros (a & b & ->). exists (String c a), b. auto.
      * intros (a & b & H). destruct a as [|c' a].
        -- exfalso. assert (prefix k (String c s) = true) by (apply prefix_iff; exists b; auto). congruence.
        -- injection H as -> H. exists a, b. auto.
Qed.
Definition container (v : yval) : Prop := dictionary v \/ (exists l, v = YList l) \/ (exists s, v = YStr s).
Lemma has_key_iff v k : container v -> exists b, has_key v k = Ok b /\ (b = true <-> mentions v k).
Proof.
  intros H. destruct v as [| | | |s|l|d]; try (exfalso; destruct H as [(x & H)|[(x & H)|(x & H)]]; discriminate).
  - eexists. split; [reflexivity|]. destruct (String.index 0 k s) as [m|] eqn:E.
    + split; [|auto]. intros _. destruct (proj1 (index_iff k s) (ex_intro _ m E)) as (a & b & ->). exact (mentions_part _ _ a b eq_refl).
    + split; [discriminate|]. intros [(x & y & Q & _)|l Q _|a b Q]; try discriminate. injection Q as Q.
      destruct (proj2 (index_iff k s) (ex_intro _ a (ex_intro _ b Q))) as (m & M). congruence.
  - eexists. split; [reflexivity|]. rewrite existsb_exists. split.
    + intros (x & I & E). destruct x; try discriminate. apply String.eqb_eq in E. subst. exact (mentions_element _ _ l eq_refl I).
    + intros [(x & y & Q & _)|l' Q I|a b Q]; try discriminate. injection Q as <-. exists (YStr k). split; auto. apply String.eqb_refl.
  - eexists. split; [reflexivity|]. split.
    + destruct (assoc k d) as [x|] eqn:E; [|discriminate]. intros _. apply mentions_key. exists x. apply item_has. cbn [item]. rewrite E. auto.
    + intros [(x & H')|l Q _|a b Q]; try discriminate. apply item_has in H'. cbn [item] in H'. destruct (assoc k d); [auto|discriminate].
Qed.
Lemma has_key_scalar v k : ~ container v -> has_key v k = Err TypeError.
Proof.
  intros N. destruct v; try reflexivity; exfalso; apply N; unfold container, dictionary; [right; right|right; left|left]; eauto.
Qed.
Lemma mentions_step {B} v k (K : res B) rest e : container v -> (mentions v k -> (K = Err e <-> refused rest e)) ->
  (do b <- has_key v k; check b else ValueError; K) = Err e <-> refused ((mentions v k, ValueError) :: rest) e.
Proof.
  intros Hc H. destruct (has_key_iff v k Hc) as (b & -> & E). cbn [bind]. apply check_step; auto.
Qed.
Lemma number_real x r : PsfFit.number x = Some r <-> is_real x r.
Proof.
  split.
  - destruct x; try discriminate; intros [= <-]; constructor.
  - inversion 1; reflexivity.
Qed.
Lemma need_step {B} v k (K : R -> res B) rest e : mentions v k -> (forall r, has_real v k r -> (K r = Err e <-> refused rest e)) ->
  bind (need_number v k) K = Err e <-> refused ((a_real v k, TypeError) :: rest) e.
Proof.
  intros M H. apply step.
  - unfold need_number. intros r E. destruct (item v k) as [x|] eqn:I; [|discriminate]. cbn [bind] in E.
    destruct (PsfFit.number x) as [r'|] eqn:N; [|discriminate]. injection E as ->. exists r, x. split; [apply item_has; auto|apply number_real; auto].
  - unfold need_number. intros e' E. destruct (item v k) as [x|e2] eqn:I; cbn [bind] in E.
    + destruct (PsfFit.number x) as [r'|] eqn:N; [discriminate|]. injection E as <-. split; [|auto].
      intros (r & y & Hy & R). apply item_has in Hy. rewrite I in Hy. injection Hy as <-. apply number_real in R. congruence.
    + injection E as <-. split.
      * intros (r & y & Hy & R). apply item_has in Hy. congruence.
      * apply item_err in I as [[-> _]|(-> & D & N)]; [auto|]. destruct M as [P|l Q _|a b Q]; [contradiction| |]; destruct D as (d & D); congruence.
  - intros r E. apply H. unfold need_number in E. destruct (item v k) as [x|] eqn:I; [|discriminate]. cbn [bind] in E.
    destruct (PsfFit.number x) as [r'|] eqn:N; [|discriminate]. injection E as ->. exists x. split; [apply item_has; auto|apply number_real; auto].
Qed.
Lemma settings_refused v e : read_config v = Err e <-> refused (psf_settings_needs v) e.
Proof.
  unfold psf_settings_needs. cbn [map app]. rewrite refused_iff. fold (container v).
  destruct (Classical_Prop.classic (container v)) as [C|C].
  - transitivity (refused ((mentions v "upsample_factor", ValueError) :: (mentions v "pad_factor", ValueError) :: (mentions v "amp_thresh", ValueError) ::
      (a_real v "upsample_factor", TypeError) :: (a_real v "pad_factor", TypeError) :: (a_real v "amp_thresh", TypeError) :: []) e); [|tauto].
    unfold read_config. apply mentions_step; auto. intros M1. apply mentions_step; auto. intros M2. apply mentions_step; auto. intros M3.
    apply need_step; auto. intros u _. apply need_step; auto. intros p _. apply need_step; auto. intros t _.
    rewrite refused_nil. split; [discriminate|tauto].
  - unfold read_config. rewrite has_key_scalar by auto. cbn [bind]. split; [intros [= <-]; auto|intros [[_ ->]|[H _]]; [auto|contradiction]].
Qed.
Lemma psffit_settings shift src tgt v e : refused (psf_settings_needs v) e -> psffit shift src tgt v = Err e.
Proof. intros H. unfold psffit. rewrite (proj2 (settings_refused v e) H). reflexivity. Qed.
Lemma psffit_shapes shift src tgt v : met (psf_settings_needs v) -> ~ (nr src = nr tgt /\ nc src = nc tgt) -> psffit shift src tgt v = Err ValueError.
Proof.
  intros M N. unfold psffit. destruct (read_config v) as [k|e] eqn:E.
  - cbn [bind]. destruct (same_shape src tgt) eqn:S; [|reflexivity]. unfold same_shape in S. rewrite andb_true_iff, !Z.eqb_eq in S. contradiction.
  - exfalso. apply settings_refused in E. exact (refused_met _ _ E M).
Qed.

(** ** get_fp and flatten *)
Lemma get_fp_refused lam z nx ppm e : get_fp lam z nx ppm = Err e <-> refused (get_fp_needs lam z nx ppm) e.
Proof.
  unfold get_fp, get_fp_needs. apply check_step; [apply pos_real_iff|]. intros _. apply check_step; [apply Z.ltb_lt|]. intros _.
  apply check_step; [apply pos_real_iff|]. intros _. apply check_step.
  - rewrite negb_true_iff, Z.ltb_ge. unfold n_samples_min. split.
    + intros H. eapply Rle_trans; [apply Zceil_ub|]. apply IZR_le. exact H.
    + apply Zceil_glb.
  - intros _. rewrite refused_nil. split; [discriminate|tauto].
Qed.
Lemma flatten_refused ops cmd1 cmd2 fcm useDMs useFCM high lam amp ph diam xo yo dm1 dm2 p e :
  refused (flatten_needs cmd1 cmd2 lam diam (f_maxNoll p) (f_nIterSmooth p) (f_nBin p) (f_arrayExtFac p)) e ->
  flatten ops cmd1 cmd2 fcm useDMs useFCM high lam amp ph diam xo yo dm1 dm2 p = Err e.
Proof.
  unfold flatten_needs. cbn [map]. intros H. unfold flatten.
  rewrite refused_iff in H. destruct (Z.eqb_spec (nr cmd1) (nc cmd1)) as [A|A]; [destruct H as [[N _]|[_ H]]; [contradiction|]|destruct H as [[_ ->]|[N _]]; [reflexivity|contradiction]].
  rewrite refused_iff in H. destruct (Z.eqb_spec (nr cmd2) (nc cmd2)) as [A2|A2]; [destruct H as [[N _]|[_ H]]; [contradiction|]|destruct H as [[_ ->]|[N _]]; [reflexivity|contradiction]].
  cbn [guard bind].
  rewrite refused_iff in H. destruct (pos_real lam) eqn:P1; [apply pos_real_iff in P1; destruct H as [[N _]|[_ H]]; [contradiction|]|].
  2:{ destruct H as [[_ ->]|[N _]]; [reflexivity|]. apply pos_real_iff in N. congruence. }
  rewrite refused_iff in H. cbn [guard bind]. destruct (pos_real diam) eqn:P2; [apply pos_real_iff in P2; destruct H as [[N _]|[_ H]]; [contradiction|]|].
  2:{ destruct H as [[_ ->]|[N _]]; [reflexivity|]. apply pos_real_iff in N. congruence. }
  cbn [guard bind]. unfold flatten_front. cbv zeta.
  rewrite refused_iff in H. destruct (Z.ltb_spec 0 (f_maxNoll p)); [destruct H as [[N _]|[_ H]]; [contradiction|]|destruct H as [[_ ->]|[N _]]; [reflexivity|lia]].
  rewrite refused_iff in H. destruct (Z.ltb_spec 0 (f_nIterSmooth p)); [destruct H as [[N _]|[_ H]]; [contradiction|]|destruct H as [[_ ->]|[N _]]; [reflexivity|lia]].
  rewrite refused_iff in H. destruct (Z.ltb_spec 0 (f_nBin p)); [destruct H as [[N _]|[_ H]]; [contradiction|]|destruct H as [[_ ->]|[N _]]; [reflexivity|lia]].
  rewrite refused_iff, refused_nil in H. destruct (pos_real (f_arrayExtFac p)) eqn:P3; [apply pos_real_iff in P3; tauto|].
  destruct H as [[_ ->]|[_ []]]. reflexivity.
Qed.
