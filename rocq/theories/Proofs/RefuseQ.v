(** Proofs about inputs refused by the plate-scale search. *)
From Coq Require Import ZArith Bool List String Reals Lra Lia.
From Flocq Require Import Core.Raux.
From Coquelicot Require Import Complex.
From Verif.Base Require Import Py Arr Vec Sums CSum.
From Verif.Model Require Import Fits Fresnel Mft Yaml GainMap PsfFit PlateSolv.
From Verif.Spec Require Import DarkHoleSpec OccastroSpec PlateSolvSpec RefuseSpec.
From Verif.Proofs Require Import FresnelP MftP DarkHoleP GainMapP PlateSolvP RefuseP.
Import ListNotations.
Open Scope string_scope.
Open Scope Z_scope.

Lemma key_present d k : has_key (YDict d) k = Ok true <-> present (YDict d) k.
Proof.
  unfold present. cbn [has_key]. destruct (assoc k d) as [x|] eqn:E.
  - split; [|auto]. intros _. exists x. apply item_has. cbn [item]. rewrite E. auto.
  - split; [discriminate|]. intros (x & H). apply item_has in H. cbn [item] in H. rewrite E in H. discriminate.
Qed.
Lemma key_step {B} d k (K : res B) e0 rest e : (present (YDict d) k -> (K = Err e <-> refused rest e)) ->
  (do b <- has_key (YDict d) k; check b else e0; K) = Err e <-> refused ((present (YDict d) k, e0) :: rest) e.
Proof.
  intros H. destruct (has_key (YDict d) k) as [b|e'] eqn:E; [|discriminate]. cbn [bind].
  apply check_step; [|auto]. rewrite <- key_present, E. split; [intros ->; auto|congruence].
Qed.
Lemma number_step {B} v k x (K : R -> res B) rest e : has v k x -> (forall r, has_real v k r -> (K r = Err e <-> refused rest e)) ->
  bind (number x) K = Err e <-> refused ((a_real v k, TypeError) :: rest) e.
Proof.
  intros Hx H. apply step.
  - intros r E. exists r, x. split; [auto|apply number_ok; auto].
  - intros e' E. split; [|destruct x; cbn in E; congruence]. intros (r & y & Hy & I). rewrite (has_det _ _ _ _ Hy Hx) in I. apply number_ok in I. congruence.
  - intros r E. apply H. exists x. split; [auto|apply number_ok; auto].
Qed.
Lemma zero_check v k r : has_real v k r -> negb (if Req_EM_T r 0 then true else false) = true <-> ~ has_real v k 0.
Proof.
  intros H. destruct (Req_EM_T r 0) as [->|N]; cbn [negb]; [split; [discriminate|contradiction]|].
  split; [|auto]. intros _ G. apply N. eapply real_det; eauto.
Qed.
Lemma arange_step {B} v k r e0 a b s (K : list R -> res B) rest e : has_real v k r -> (s = 0%R <-> r = 0%R) ->
  (r <> 0%R -> (K (map (fun i => a + IZR i * s)%R (zrange (Zceil ((b - a) / s)))) = Err e <-> refused rest e)) ->
  bind (arange e0 a b s) K = Err e <-> refused ((~ has_real v k 0, e0) :: rest) e.
Proof.
  intros H Z H1. rewrite refused_iff. unfold arange. destruct (Req_EM_T s 0) as [E|E]; cbn [bind].
  - assert (r = 0%R) by tauto. subst r. split; [intros [= <-]; tauto|]. intros [[_ ->]|[]]; tauto.
  - assert (N : r <> 0%R) by tauto. rewrite (H1 N). assert (~ has_real v k 0) by (intros G; apply N; eapply real_det; eauto). tauto.
Qed.
Lemma imft_empty a g P : ~ (0 < nr a /\ 0 < nc a) -> wf a -> (0 < g)%R -> do_imft (amap RtoC a) [nr a; nc a] g P = Err TypeError.
Proof.
  intros N W Hg. unfold do_imft. rewrite guard_true by (apply pos_real_iff; auto). destruct (pos_real P); cbn [guard bind]; [|auto].
  unfold shape2. destruct W. destruct (1 <=? nr a) eqn:E1; cbn [guard bind andb]; auto. destruct (1 <=? nc a) eqn:E2; cbn [guard bind andb]; auto.
  apply Z.leb_le in E1, E2. lia.
Qed.

Section Residuals.
Variables (img guess : arr R) (g : R) (F : arr C).
Let P := IZR (Z.max (nr guess) (nc guess)).
Hypotheses (Hn : 0 < nr guess) (Hm : 0 < nc guess) (S : same_shape img guess = true) (Hg : (0 < g)%R).
Hypothesis HF : do_imft (amap RtoC guess) [nr guess; nc guess] g P = Ok F.
Variables (consts pv : yval) (Hpv : has consts "percentile_val" pv).
Let f := trial_residual img guess F P pv.
Let range := exists p, has_real consts "percentile_val" p /\ (0 <= p <= 100)%R.
Lemma number_real : (exists p, is_real pv p) <-> a_real consts "percentile_val".
Proof.
  unfold a_real, has_real. split; [intros (p & I); eauto|]. intros (p & y & A & I). rewrite (has_det _ _ _ _ A Hpv) in I. eauto.
Qed.
Lemma range_real p : is_real pv p -> (0 <= p <= 100)%R <-> range.
Proof.
  intros I. unfold range. split; [intros L; exists p; split; [exists pv; auto|auto]|].
  intros (q & H & L). rewrite (real_det consts "percentile_val" p q); [auto|exists pv; auto|auto].
Qed.
Lemma trial_err x e : f x = Err e <-> refused [((0 < x)%R, TypeError); (a_real consts "percentile_val", TypeError); (range, ValueError)] e.
Proof.
  rewrite !refused_iff, refused_nil. rewrite <- number_real. destruct (Rlt_dec 0 x) as [Px|Px].
  - pose proof (trial_ok img guess g F Hn Hm S Hg HF pv x) as T. fold P in T. fold (f x) in T. destruct (f x) as [r|e'].
    + destruct T as (_ & p & I & L & _). split; [discriminate|]. assert (range) by (eapply range_real; eauto). assert (exists p, is_real pv p) by eauto. tauto.
    + destruct T as [[-> T]|[-> (p & I & T)]].
      * split; [intros [= <-]; tauto|]. intros [[_ ->]|[_ [[_ ->]|[Q _]]]]; tauto.
      * assert (~ range) by (intros Q; apply T; eapply range_real; eauto). assert (exists p, is_real pv p) by eauto.
        split; [intros [= <-]; tauto|]. intros [[? _]|[_ [[? _]|[_ [[_ ->]|[_ []]]]]]]; tauto.
  - assert (E : f x = Err TypeError).
    { unfold f, trial_residual, do_mft. destruct (pos_real x) eqn:Q; [apply pos_real_iff in Q; contradiction|]. reflexivity. }
    rewrite E. split; [intros [= <-]; tauto|]. intros [[_ ->]|[? _]]; tauto.
Qed.
Lemma residuals_all l e : a_real consts "percentile_val" -> range -> residuals f l = Err e <-> refused [(forall x, In x l -> (0 < x)%R, TypeError)] e.
Proof.
  intros Q1 Q2. rewrite refused_iff, refused_nil. induction l as [|x l IH]; cbn [residuals].
  - split; [discriminate|]. intros [[N _]|[_ []]]. destruct N. intros x [].
  - destruct (f x) as [r|e'] eqn:E; cbn [bind].
    + assert (Px : (0 < x)%R). { destruct (Rlt_dec 0 x) as [|N]; [auto|]. pose proof (proj2 (trial_err x TypeError) (refused_here _ _ _ N)). congruence. }
      destruct (residuals f l) as [rs|e'] eqn:E'; cbn [bind].
      * split; [discriminate|]. intros [[N ->]|[_ []]]. enough (@Ok (list (option R)) rs = Err TypeError) by discriminate. apply IH. left.
        split; [|auto]. intros A. apply N. intros y [<-|Hy]; auto.
      * rewrite IH. split; [intros [[N ->]|[_ []]]|intros [[N ->]|[_ []]]]; left; (split; [|auto]); intros A; apply N.
        -- intros y Hy. apply A. right. auto.
        -- intros y [<-|Hy]; auto.
    + apply trial_err in E. rewrite !refused_iff, refused_nil in E. destruct E as [[N ->]|[_ [[N _]|[_ [[N _]|[_ []]]]]]]; try contradiction.
      split; [intros [= <-]; left; split; [|auto]; intros A; apply N; apply A; left; auto|intros [[_ ->]|[_ []]]; auto].
Qed.
Lemma residuals_err x l e : residuals f (x :: l) = Err e <->
  refused [((0 < x)%R, TypeError); (a_real consts "percentile_val", TypeError); (range, ValueError); (forall y, In y (x :: l) -> (0 < y)%R, TypeError)] e.
Proof.
  change [((0 < x)%R, TypeError); (a_real consts "percentile_val", TypeError); (range, ValueError); (forall y, In y (x :: l) -> (0 < y)%R, TypeError)]
    with ([((0 < x)%R, TypeError); (a_real consts "percentile_val", TypeError); (range, ValueError)] ++ [(forall y, In y (x :: l) -> (0 < y)%R, TypeError)])%list.
  rewrite refused_app. rewrite <- trial_err. unfold met. rewrite !Forall_cons_iff. cbn [fst].
  destruct (f x) as [r|e'] eqn:E.
  - assert (M : met [((0 < x)%R, TypeError); (a_real consts "percentile_val", TypeError); (range, ValueError)]).
    { destruct (met_or [((0 < x)%R, TypeError); (a_real consts "percentile_val", TypeError); (range, ValueError)]) as [M|(e' & H)]; [auto|].
      apply trial_err in H. congruence. }
    unfold met in M. rewrite !Forall_cons_iff in M. cbn [fst] in M. destruct M as (M1 & M2 & M3 & _).
    rewrite (residuals_all (x :: l) e M2 M3). split; [intros H; right; split; [auto|exact H]|]. intros [H|[_ H]]; [discriminate|exact H].
  - cbn [residuals]. rewrite E. cbn [bind]. split; [intros [= <-]; auto|]. intros [[= ->]|[(M1 & M2 & M3 & _) _]]; [auto|].
    apply trial_err in E. exfalso. eapply refused_met; [exact E|]. unfold met. repeat (apply Forall_cons; [cbn [fst]; assumption|]). apply Forall_nil.
Qed.
End Residuals.

Lemma refused_swap P P' e0 l l' e : (P <-> P') -> (P -> (refused l e <-> refused l' e)) -> refused ((P, e0) :: l) e <-> refused ((P', e0) :: l') e.
Proof. intros A B. rewrite !refused_iff. tauto. Qed.
Lemma bind_split {A B} (m : res A) (K : A -> res B) l l' e : (forall e', m = Err e' <-> refused l e') ->
  (forall a, m = Ok a -> met l -> (K a = Err e <-> refused l' e)) -> bind m K = Err e <-> refused (l ++ l') e.
Proof.
  intros H1 H2. rewrite refused_app. destruct m as [a|e'] eqn:E; cbn [bind].
  - assert (M : met l). { destruct (met_or l) as [M|(e' & H)]; [auto|]. apply H1 in H. discriminate. }
    rewrite (H2 a eq_refl M). split; [auto|]. intros [H|[_ H]]; [destruct (refused_met _ _ H M)|auto].
  - split; [intros [= <-]; left; apply H1; auto|]. intros [H|[M _]]; [apply H1 in H; congruence|].
    exfalso. eapply refused_met; [apply H1; reflexivity|exact M].
Qed.
Lemma trials_from n : 0 < n -> zrange n = 0 :: map Z.succ (zrange (n - 1)).
Proof.
  intros H. unfold zrange. replace (Z.to_nat n) with (S (Z.to_nat (n - 1))) by lia. cbn [seq map]. f_equal.
  rewrite <- seq_shift, !map_map. apply map_ext. intros. lia.
Qed.
Lemma platesolv_refused spline img guess g d e : wf guess ->
  platesolv spline img guess g (YDict d) = Err e <-> refused (platesolv_needs img guess g (YDict d)) e.
Proof.
  intros Wf. unfold platesolv_needs. cbv zeta. cbn [app map]. unfold platesolv. set (c := YDict d).
  apply check_step; [apply pos_real_iff|]. intros Hg.
  apply check_step; [unfold same_shape; rewrite andb_true_iff, !Z.eqb_eq; tauto|]. intros [S1 S2].
  assert (S' : same_shape img guess = true) by (unfold same_shape; rewrite andb_true_iff, !Z.eqb_eq; auto).
  apply key_step. intros (w_ & Hw). apply key_step. intros (n_ & Hn). apply key_step. intros (p_ & Hp). apply key_step. intros (s_ & Hs).
  fold c in Hw, Hn, Hp, Hs. rewrite (proj2 (item_has _ _ _) Hw), (proj2 (item_has _ _ _) Hn), (proj2 (item_has _ _ _) Hp), (proj2 (item_has _ _ _) Hs). cbn [bind].
  eapply number_step; [exact Hw|]. intros w Rw. cbv zeta. eapply number_step; [exact Hn|]. intros n Rn.
  apply check_step; [apply zero_check; auto|]. intros N0.
  assert (Nn : n <> 0%R) by (intros ->; contradiction).
  eapply arange_step; [exact Rw| |].
  { pose proof (step_nonzero g w n Hg Nn). destruct (Req_EM_T w 0); destruct (Req_EM_T (g * w / (n / 2)) 0); tauto. }
  intros W0. rewrite trials_list by auto.
  assert (TA : forall i x, trial_at c g i x <-> 0 <= i < Zceil n /\ x = trial_scale g w n i).
  { intros i x. unfold trial_at. split.
    - intros (w' & n' & A & B & I & ->). rewrite (real_det _ _ _ _ Rw A), (real_det _ _ _ _ Rn B). auto.
    - intros [I ->]. exists w, n. auto. }
  destruct (Classical_Prop.classic (0 < nr guess /\ 0 < nc guess)) as [Hd|Hd].
  2:{ rewrite (imft_empty guess g (IZR (Z.max (nr guess) (nc guess))) Hd Wf Hg). cbn [bind]. rewrite refused_iff.
      split; [intros [= <-]; auto|]. intros [[_ ->]|[? _]]; tauto. }
  destruct Hd as [Hr Hc]. pose proof (P_pos guess Hc) as PP. set (P := IZR (Z.max (nr guess) (nc guess))) in *.
  destruct (do_imft_ok (amap RtoC guess) (nr guess) (nc guess) g P) as (F & EF & _); auto. rewrite EF. cbn [bind].
  rewrite refused_iff. transitivity (refused
    [(forall x, trial_at c g 0 x -> (0 < x)%R, TypeError);
     (forall x, trial_at c g 0 x -> a_real c "percentile_val", TypeError);
     (forall x, trial_at c g 0 x -> exists p, has_real c "percentile_val" p /\ (0 <= p <= 100)%R, ValueError);
     (forall i x, trial_at c g i x -> (0 < x)%R, TypeError);
     (exists x, trial_at c g 0 x, ValueError);
     (a_real c "interp_step_size", TypeError); (~ has_real c "interp_step_size" 0, ValueError);
     (exists x, trial_at c g 3 x, ValueError); (a_positive c "interp_step_size", ValueError)] e); [|tauto].
  destruct (Z_lt_le_dec 0 (Zceil n)) as [Cn|Cn].
  2:{ rewrite (zrange_nil _ Cn). cbn [map residuals bind].
      assert (NT : forall i x, ~ trial_at c g i x) by (intros i x; rewrite TA; lia).
      rewrite !refused_iff. assert (A1 : forall Q : Prop, (forall x, trial_at c g 0 x -> Q)) by (intros Q x K; destruct (NT _ _ K)).
      assert (A2 : ~ exists x, trial_at c g 0 x) by (intros (x & K); exact (NT _ _ K)).
      split.
      - intros [= <-]. right. split; [intros x K; destruct (NT _ _ K)|]. right. split; [intros x K; destruct (NT _ _ K)|].
        right. split; [intros x K; destruct (NT _ _ K)|]. right. split; [intros i x K; destruct (NT _ _ K)|]. left. auto.
      - intros [[N ->]|[_ [[N ->]|[_ [[N ->]|[_ [[N ->]|[_ [[_ ->]|[K _]]]]]]]]]]; try (destruct N; intros; edestruct NT; eassumption); try contradiction. auto. }
  set (pix := map (trial_scale g w n) (zrange (Zceil n))).
  assert (Ex : exists pl, pix = trial_scale g w n 0 :: pl) by (unfold pix; rewrite (trials_from _ Cn); cbn [map]; eauto). destruct Ex as (pl & Ex).
  assert (T0 : trial_at c g 0 (trial_scale g w n 0)) by (apply TA; split; [lia|auto]).
  assert (IP : forall x, In x pix <-> exists i, trial_at c g i x).
  { intros x. unfold pix. rewrite in_map_iff. split.
    - intros (i & <- & I). apply Arr.in_zrange in I. exists i. apply TA. auto.
    - intros (i & K). apply TA in K as [I ->]. exists i. split; [auto|]. apply Arr.in_zrange. auto. }
  transitivity (refused ([((0 < trial_scale g w n 0)%R, TypeError); (a_real c "percentile_val", TypeError);
      (exists p, has_real c "percentile_val" p /\ (0 <= p <= 100)%R, ValueError); (forall y, In y pix -> (0 < y)%R, TypeError)] ++
     [(a_real c "interp_step_size", TypeError); (~ has_real c "interp_step_size" 0, ValueError);
      (exists x, trial_at c g 3 x, ValueError); (a_positive c "interp_step_size", ValueError)]) e).
  2:{ cbn [app]. apply refused_swap. { split; [intros K x L; apply TA in L as [_ ->]; auto|intros K; apply K; auto]. }
      intros _. apply refused_swap. { split; [auto|intros K; apply (K _ T0)]. } intros _. apply refused_swap. { split; [auto|intros K; apply (K _ T0)]. }
      intros _. apply refused_swap. { split; [intros K i x L; apply K; apply IP; eauto|intros K y L; apply IP in L as (i & L); eapply K; eauto]. }
      intros _. rewrite (refused_iff (exists x, trial_at c g 0 x)). assert (exists x, trial_at c g 0 x) by eauto. tauto. }
  rewrite Ex. apply bind_split.
  { intros e'. apply (residuals_err img guess g F Hr Hc S' Hg EF c p_ Hp). }
  intros rs _ _. rewrite <- Ex. eapply number_step; [exact Hs|]. intros st Rs.
  eapply arange_step; [exact Rs|tauto|]. intros S0.
  assert (Ix : In (trial_scale g w n 0) pix) by (rewrite Ex; left; auto).
  pose proof (rmin_least pix _ Ix) as Lo. pose proof (rmax_most pix _ Ix) as Hi.
  set (lo := rmin_list pix _) in *. set (hi := PsfFit.rmax_list pix _) in *.
  assert (LP : len pix = Zceil n) by (unfold pix; rewrite len_map_zrange; lia).
  apply check_step.
  { rewrite LP, Z.leb_le. split; [intros L; exists (trial_scale g w n 3); apply TA; split; [lia|auto]|intros (x & K); apply TA in K; lia]. }
  intros (x3 & K3). apply TA in K3 as [K3 _].
  assert (I1 : In (trial_scale g w n 1) pix) by (apply IP; exists 1; apply TA; split; [lia|auto]).
  assert (LH : (lo < hi)%R).
  { assert (trial_scale g w n 0 <> trial_scale g w n 1). { unfold trial_scale. intros Q. assert (Q' : (2 * g * w / n = 0)%R) by (cbn in Q; lra). 
      apply W0. assert (HH : (g * w = 0)%R). { replace (g * w)%R with (2 * g * w / n * n / 2)%R by (field; auto). rewrite Q'. field. } apply Rmult_integral in HH as [?|?]; [lra|auto]. }
    pose proof (proj2 Lo _ Ix). pose proof (proj2 Lo _ I1). pose proof (proj2 Hi _ Ix). pose proof (proj2 Hi _ I1). destruct (Rtotal_order (trial_scale g w n 0) (trial_scale g w n 1)) as [?|[?|?]]; [lra|contradiction|lra]. }
  rewrite refused_iff, refused_nil. destruct (Rlt_dec 0 st) as [Ps|Ps].
  - assert (GI : In lo (map (fun i : Z => (lo + IZR i * st)%R) (zrange (Zceil ((hi - lo) / st))))).
    { apply arange_grid; [auto|]. exists 0. split; [lia|]. split; [ring|auto]. }
    assert (AP : a_positive c "interp_step_size") by (exists st; auto).
    destruct (map _ (zrange (Zceil ((hi - lo) / st)))) as [|g0 gl]; [destruct GI|]. destruct (all_finite rs); (split; [discriminate|tauto]).
  - rewrite arange_backward by lra.
    assert (AP : ~ a_positive c "interp_step_size") by (intros (r & A & B); rewrite (real_det _ _ _ _ Rs A) in Ps; contradiction).
    split; [intros [= <-]; auto|intros [[_ ->]|[? _]]; tauto].
Qed.
Lemma platesolv_no_mapping spline img guess g v : (0 < g)%R -> nr img = nr guess -> nc img = nc guess ->
  (v = YNone \/ exists b, v = YBool b) \/ (exists z, v = YInt z) \/ (exists r, v = YReal r) -> platesolv spline img guess g v = Err TypeError.
Proof.
  intros Hg H1 H2 H. unfold platesolv. rewrite guard_true by (apply pos_real_iff; auto).
  rewrite guard_true by (unfold same_shape; rewrite andb_true_iff, !Z.eqb_eq; auto).
  destruct H as [[->|(b & ->)]|[(z & ->)|(r & ->)]]; reflexivity.
Qed.
Lemma three_trials spline img guess : same_shape img guess = true -> 0 < nr guess -> 0 < nc guess ->
  platesolv spline img guess 2 (YDict [("ps_wid", YReal (1/5)); ("n_trials", YInt 3); ("percentile_val", YInt 99); ("interp_step_size", YReal (1/100))]) = Err ValueError.
Proof.
  intros S Hr Hc. set (d := [("ps_wid", _); _; _; _]). apply platesolv_refused; [split; lia|].
  unfold same_shape in S. rewrite andb_true_iff, !Z.eqb_eq in S.
  assert (E1 : has_real (YDict d) "ps_wid" (1/5)) by (eexists; split; [exists d; split; [reflexivity|apply entry_here]|constructor]).
  assert (E2 : has_real (YDict d) "n_trials" (IZR 3)).
  { eexists; split; [exists d; split; [reflexivity|apply entry_later; [discriminate|apply entry_here]]|constructor]. }
  assert (E3 : has_real (YDict d) "percentile_val" (IZR 99)).
  { eexists; split; [exists d; split; [reflexivity|do 2 (apply entry_later; [discriminate|]); apply entry_here]|constructor]. }
  assert (E4 : has_real (YDict d) "interp_step_size" (1/100)).
  { eexists; split; [exists d; split; [reflexivity|do 3 (apply entry_later; [discriminate|]); apply entry_here]|constructor]. }
  assert (Pr : forall k r, has_real (YDict d) k r -> present (YDict d) k) by (intros k r (x & H & _); exists x; auto).
  assert (TA : forall i x, trial_at (YDict d) 2 i x -> 0 <= i < 3 /\ x = trial_scale 2 (1/5) 3 i).
  { intros i x (w & n & A & B & I & ->). rewrite <- (real_det _ _ _ _ E1 A), <- (real_det _ _ _ _ E2 B) in *. rewrite Zceil_IZR in I. auto. }
  unfold platesolv_needs. cbn [app map]. 
  apply refused_later; [lra|]. apply refused_later; [auto|]. do 4 (apply refused_later; [eauto|]).
  apply refused_later; [eexists; eauto|]. apply refused_later; [eexists; eauto|].
  apply refused_later; [intros K; pose proof (real_det _ _ _ _ E2 K); lra|]. apply refused_later; [intros K; pose proof (real_det _ _ _ _ E1 K); lra|].
  apply refused_later; [auto|].
  assert (Ps : forall i x, trial_at (YDict d) 2 i x -> (0 < x)%R).
  { intros i x K. apply TA in K as [I ->]. unfold trial_scale. assert (0 <= IZR i)%R by (apply IZR_le; lia). lra. }
  apply refused_later; [intros; eapply Ps; eauto|]. apply refused_later; [intros; eexists; eauto|].
  apply refused_later; [intros; exists 99%R; split; [auto|lra]|]. apply refused_later; [auto|].
  apply refused_later. { exists (trial_scale 2 (1/5) 3 0), (1/5)%R, 3%R. rewrite Zceil_IZR. repeat split; auto; lia. }
  apply refused_later; [eexists; eauto|]. apply refused_later; [intros K; pose proof (real_det _ _ _ _ E4 K); lra|].
  apply refused_here. intros (x & K). apply TA in K. lia.
Qed.
