(** Reference numerical routines and concrete configurations for flatten and conv_surf_to_dm_cmd. *)
From Coq Require Import ZArith Bool List Reals Lra Lia Psatz ClassicalEpsilon.
From Flocq Require Import Core.
From Verif.Base Require Import Py Arr Vec Sums Lstsq.
From Verif.Model Require Import PadCrop Math Noll Fits Fresnel Dm Conjugate.
From Verif.Spec Require Import MathSpec ZernikeSpec DmSpec FitsSpec ConjugateSpec.
From Verif.Proofs Require Import PadCropP ZernP FitsP DmP MathP DarkHoleP ConjugateP ConjugateCmdP.
Import ListNotations.
Open Scope Z_scope.

Definition findR (f : Z -> R) (v : R) (n : Z) : option Z :=
  find (fun i => if Req_EM_T (f i) v then true else false) (zrange n).
Definition bispline_ref (ys xs : Z -> R) (a : arr R) (y x : R) : R :=
  match findR ys y (nr a), findR xs x (nc a) with Some i, Some j => at2 a i j | _, _ => 0%R end.
Definition on_grid (u : R) : bool := if Req_EM_T (IZR (Zfloor u)) u then true else false.
Definition spline2_ref : spline2_fun := fun ppa a y x =>
  let u := (y * ppa + (IZR (nr a) - 1) / 2)%R in
  let v := (x * ppa + (IZR (nc a) - 1) / 2)%R in
  if on_grid u && on_grid v then at0 a (Zfloor u) (Zfloor v) else 0%R.
Definition conv_ref : conv_ops := ConvOps (fun a _ => a) bispline_ref spline2_ref solve_ref.
Definition scipy_ref : scipy_ops :=
  ScipyOps (sp_interp ops_ref) (fun a _ => a)
    (fun a dy dx => Arr (nr a) (nc a) (fun i j =>
       if in_arrb a (i - Zfloor dy) (j - Zfloor dx) then at2 a (i - Zfloor dy) (j - Zfloor dx) else 0%R)).

Lemma findR_in f v n i : findR f v n = Some i -> 0 <= i < n /\ f i = v.
Proof.
  unfold findR. intros H. apply find_some in H as [H1 H2]. apply in_zrange in H1.
  destruct (Req_EM_T (f i) v); [auto|discriminate].
Qed.
Lemma findR_mono f n i : (forall k l, k < l -> (f k < f l)%R) -> 0 <= i < n -> findR f (f i) n = Some i.
Proof.
  intros M Hi. destruct (findR f (f i) n) as [k|] eqn:E.
  - apply findR_in in E as [Hk Ek]. f_equal. destruct (Z.lt_trichotomy k i) as [L|[L|L]]; auto; apply M in L; lra.
  - exfalso. unfold findR in E. pose proof (find_none _ _ E i (proj2 (in_zrange n i) Hi)) as N. cbv beta in N.
    destruct (Req_EM_T (f i) (f i)); [discriminate|congruence].
Qed.
Lemma conv_ref_ok : no_rotation (co_rotate conv_ref) /\ grid_spline (co_bispline conv_ref) /\
  kernel_spline (co_spline2 conv_ref) /\ spline_symmetric (co_spline2 conv_ref) /\ is_solver (co_solve conv_ref) /\
  keeps_zero conv_ref /\ (forall a t, nr (co_rotate conv_ref a t) = nr a /\ nc (co_rotate conv_ref a t) = nc a).
Proof.
  split; [intros a; apply aeq_refl|]. split; [|split; [|split; [|split; [exact solve_ref_ok|split]]]].
  - intros ys xs a i j My Mx [Hi Hj]. cbn. unfold bispline_ref. rewrite !findR_mono by auto. reflexivity.
  - intros ppa a i j Hp I. cbn. unfold spline2_ref.
    assert (E : forall k n, ((IZR k - (IZR n - 1) / 2) / ppa * ppa + (IZR n - 1) / 2 = IZR k)%R) by (intros; field; lra).
    rewrite !E. unfold on_grid. rewrite !Zfloor_IZR. destruct (Req_EM_T (IZR i) (IZR i)); [|congruence].
    destruct (Req_EM_T (IZR j) (IZR j)); [|congruence]. cbn. apply at0_in; auto.
  - intros ppa k y x S. cbn. unfold spline2_ref.
    set (u := (y * ppa + _)%R). set (v := (x * ppa + _)%R).
    assert (Eu : (- y * ppa + (IZR (nr k) - 1) / 2 = IZR (nr k - 1) - u)%R) by (unfold u; rewrite minus_IZR; field).
    assert (Ev : (- x * ppa + (IZR (nc k) - 1) / 2 = IZR (nc k - 1) - v)%R) by (unfold v; rewrite minus_IZR; field).
    rewrite Eu, Ev.
    assert (G : forall (n : Z) t, on_grid (IZR n - t) = on_grid t /\ (on_grid t = true -> Zfloor (IZR n - t) = n - Zfloor t)).
    { intros n t. unfold on_grid. split.
      - destruct (Req_EM_T (IZR (Zfloor t)) t) as [E|E]; destruct (Req_EM_T (IZR (Zfloor (IZR n - t))) (IZR n - t)) as [E2|E2]; auto; exfalso.
        + apply E2. assert (Q : (IZR n - t = IZR (n - Zfloor t))%R) by (rewrite minus_IZR, E; ring).
          rewrite Q, Zfloor_IZR. auto.
        + apply E. assert (Q : t = IZR (n - Zfloor (IZR n - t))) by (rewrite minus_IZR, E2; ring).
          rewrite Q at 1. rewrite Zfloor_IZR. auto.
      - destruct (Req_EM_T (IZR (Zfloor t)) t) as [E|E]; [|discriminate]. intros _.
        assert (Q : (IZR n - t = IZR (n - Zfloor t))%R) by (rewrite minus_IZR, E; ring).
        rewrite Q, Zfloor_IZR. auto. }
    destruct (G (nr k - 1) u) as [G1 G2]. destruct (G (nc k - 1) v) as [G3 G4]. rewrite G1, G3.
    destruct (on_grid u); [|reflexivity]. destruct (on_grid v); [|reflexivity]. cbn.
    rewrite G2, G4 by auto. unfold at0. set (a := Zfloor u). set (b := Zfloor v).
    destruct (in_arrb k a b) eqn:B.
    + apply in_arrb_spec in B. rewrite (proj2 (in_arrb_spec _ _ _)) by (unfold in_arr in *; lia). apply S; auto.
    + apply in_arrb_false in B. rewrite (proj2 (in_arrb_false _ _ _)); auto. unfold in_arr in *; lia.
  - split; [intros a t H; exact H|]. intros ys xs a y x H. cbn. unfold bispline_ref.
    destruct (findR ys y (nr a)) as [i|] eqn:E1; auto. destruct (findR xs x (nc a)) as [j|] eqn:E2; auto.
    apply H. apply findR_in in E1, E2. split; tauto.
  - intros; cbn; auto.
Qed.
Lemma scipy_ref_ok : no_rotation (sp_rotate scipy_ref) /\ whole_shift (sp_shift scipy_ref) /\ interpolates scipy_ref /\
  shape_preserving scipy_ref.
Proof.
  split; [intros a; apply aeq_refl|]. split; [|split].
  - intros a m n. cbn. rewrite !Zfloor_IZR. auto.
  - intros n ppd a k l. exact (proj1 ops_ref_ok n ppd a k l).
  - split; cbn; auto.
Qed.

(** An influence function that is 1 at its centre and 0 elsewhere. *)
Definition delta3 : arr R := Arr 3 3 (fun i j => if (i =? 1) && (j =? 1) then 1%R else 0%R).
Lemma delta3_sym : point_symmetric delta3 /\ wf delta3.
Proof.
  split; [|split; cbn; lia]. intros p q [Hp Hq]. cbn in *.
  assert (p = 0 \/ p = 1 \/ p = 2) as [->|[->| ->]] by lia;
  assert (q = 0 \/ q = 1 \/ q = 2) as [->|[->| ->]] by lia; reflexivity.
Qed.
Lemma delta3_at u v : at0 delta3 (u + 1) (v + 1) = if (u =? 0) && (v =? 0) then 1%R else 0%R.
Proof.
  unfold at0. destruct (in_arrb delta3 (u + 1) (v + 1)) eqn:B.
  - cbn. destruct (Z.eqb_spec (u + 1) 1), (Z.eqb_spec (v + 1) 1), (Z.eqb_spec u 0), (Z.eqb_spec v 0); cbn; auto; lia.
  - apply in_arrb_false in B. destruct (Z.eqb_spec u 0), (Z.eqb_spec v 0); cbn; auto. exfalso. apply B. subst. split; cbn; lia.
Qed.
Lemma delta3_res sp : resample_inf_func sp delta3 1 1 = Ok delta3.
Proof.
  unfold resample_inf_func. rewrite !guard_true by (apply pos_real_iff; lra).
  destruct (Req_EM_T 1 1); [auto|congruence].
Qed.
Lemma delta3_prefilter sp n A : build_prefilter sp n n delta3 1 = Ok A -> nonsingular (sdim A) (sat A).
Proof.
  intros H. apply build_prefilter_ok in H as (Hn & _ & _ & D & k & Ek & V).
  rewrite delta3_res in Ek. injection Ek as <-. change (nr delta3 / 2) with 1 in V. change (nc delta3 / 2) with 1 in V.
  rewrite D in *.
  assert (Id : forall i x, 0 <= i < n * n -> rsum (fun k => sat A i k * x k)%R (n * n) = x i).
  { intros i x Hi. rewrite (rsum_ext _ (fun k => if k =? i then x k else 0)%R).
    - apply rsum_delta; auto.
    - intros q Hq. rewrite V by lia. rewrite delta3_at.
      destruct (Z.eqb_spec q i) as [->|N].
      + rewrite !Z.sub_diag. cbn. ring.
      + destruct (Z.eqb_spec (q / n - i / n) 0) as [E1|]; [|cbn; ring].
        destruct (Z.eqb_spec (q mod n - i mod n) 0) as [E2|]; [|cbn; ring]. exfalso. apply N.
        rewrite (Z.div_mod q n), (Z.div_mod i n) by lia. replace (q / n) with (i / n) by lia. lia. }
  intros b. split.
  - exists b. intros i Hi. apply Id; auto.
  - intros x y Hx Hy i Hi. rewrite <- (Id i x Hi), <- (Id i y Hi). rewrite Hx, Hy; auto.
Qed.
Definition dm_ex (n dx : Z) (flipx : bool) (tie : arr Z) : dm_config :=
  DmConfig n 1 1 (IZR dx) 0 0 1 flipx 1 delta3 tie (afull n n 1%R).

(** ** flipped and shifted: the round trip fails *)
Definition poke5 : arr R := Arr 5 5 (fun i j => if (i =? 0) && (j =? 2) then 1%R else 0%R).
Lemma poke5_shown fx : exists out, dmhtoph scipy_ref 7 7 poke5 5 delta3 1 1 1 1 0 0 fx = Ok out.
Proof.
  apply dmhtoph_defined; [apply scipy_ref_ok| |unfold design_size; cbn; lia].
  unfold dm_args. cbn [nr nc poke5 delta3]. repeat split; try lia; try lra; try reflexivity.
Qed.
Lemma surface_size ops nrow ncol d nact inf ppd cx cy dx dy th fx out : shape_preserving ops -> wf inf ->
  dmhtoph ops nrow ncol d nact inf ppd cx cy dx dy th fx = Ok out -> nr out = nrow /\ nc out = ncol.
Proof. intros. eapply dmhtoph_shape; eauto. Qed.
Lemma flip_shift_wrong : exists out h,
  dmhtoph scipy_ref 7 7 poke5 5 delta3 1 1 1 1 0 0 true = Ok out /\
  conv_surf_to_dm_cmd conv_ref out (dm_ex 5 1 true (afull 5 5 0)) = Ok h /\ at2 h 0 0 = 1%R /\ at2 poke5 0 0 = 0%R.
Proof.
  destruct (poke5_shown true) as [out E]. exists out.
  destruct conv_ref_ok as (C1 & C2 & C3 & C4 & C5 & C6 & C7). destruct scipy_ref_ok as (S1 & S2 & S3 & S4).
  destruct delta3_sym as [D1 D2].
  destruct (surface_size _ _ _ _ _ _ _ _ _ _ _ _ _ _ S4 D2 E) as [O1 O2].
  destruct (conv_def conv_ref out (dm_ex 5 1 true (afull 5 5 0))) as [h H]; cbn; try lra; try lia; auto.
  exists h. do 2 (split; [auto|]). split; [|reflexivity].
  pose proof (conv_inv _ _ _ _ H) as (_ & _ & _ & _ & _ & _ & N1 & N2 & _). cbn [c_nact dm_ex] in N1, N2.
  assert (T : dm_surface delta3 h 0 0 = dm_surface delta3 poke5 0 2).
  { assert (Ev : Z.Even ((5 - 1) * 1)) by (exists 2; reflexivity).
    apply (round_trip_at scipy_ref conv_ref 7 7 1 1 0 poke5 out (dm_ex 5 1 true (afull 5 5 0)) D2 S1 S2 S3 C1 C2 C3 C5
      eq_refl eq_refl eq_refl eq_refl eq_refl eq_refl Ev (delta3_prefilter _ 5) D1 C4 E); cbn [c_flipx c_nact c_inf dm_ex nr delta3]; try lia; auto.
    apply delta3_res. }
  assert (Id : forall x r c, in_arr x r c -> dm_surface delta3 x r c = at2 x r c).
  { intros x r c [Hr Hc]. unfold dm_surface.
    rewrite (rsum2_ext _ (fun a b => if (a =? r) && (b =? c) then at2 x a b else 0)%R).
    - rewrite rsum2_pick. destruct (Z.leb_spec 0 r), (Z.ltb_spec r (nr x)), (Z.leb_spec 0 c), (Z.ltb_spec c (nc x)); cbn; auto; lia.
    - intros a b _ _. change (nr delta3 / 2) with 1. change (nc delta3 / 2) with 1. rewrite delta3_at.
      destruct (Z.eqb_spec (r - a) 0), (Z.eqb_spec (c - b) 0), (Z.eqb_spec a r), (Z.eqb_spec b c); cbn; try ring; lia. }
  rewrite !Id in T by (split; cbn; lia). rewrite T. reflexivity.
Qed.

(** ** a complete run of flatten *)
Definition fmin_ref : fmin_fun := fun f lo hi =>
  epsilon (inhabits 0%R) (fun x => (lo <= hi)%R -> (lo <= x <= hi)%R /\ ((exists y, minimises f lo hi y) -> minimises f lo hi x)).
Lemma fmin_ref_ok : bounded_fmin fmin_ref /\ exact_fmin fmin_ref.
Proof.
  assert (X : forall f lo hi, (lo <= hi)%R -> (lo <= fmin_ref f lo hi <= hi)%R /\
     ((exists y, minimises f lo hi y) -> minimises f lo hi (fmin_ref f lo hi))).
  { intros f lo hi L. unfold fmin_ref.
    refine (epsilon_spec (inhabits 0%R) (fun x => (lo <= hi)%R -> (lo <= x <= hi)%R /\
        ((exists y, minimises f lo hi y) -> minimises f lo hi x)) _ L).
    destruct (classic (exists y, minimises f lo hi y)) as [[y Y]|N].
    - exists y. intros _. split; auto. apply Y.
    - exists lo. intros _. split; [lra|tauto]. }
  split; [intros f lo hi L; exact (proj1 (X f lo hi L))|intros f lo hi L E; exact (proj2 (X f lo hi L) E)].
Qed.
Definition ker_ref : kernel_fun := fun _ => afull 1 1 1%R.
Lemma ker_ref_ok wd : averaging (ker_ref wd).
Proof.
  unfold averaging, ker_ref. cbn [nr nc afull]. do 2 (split; [lia|]). split; [intros; cbn; lra|].
  unfold rsum2. rewrite !rsum_one. reflexivity.
Qed.
Definition flat_ref : flatten_ops := FlattenOps lstsq_ref fmin_ref ker_ref conv_ref.
Definition par_ex : flatten_params := FlattenParams 1 2 5 1 3 1.
Lemma two_valued a : (forall i j, in_arr a i j -> at2 a i j = 0%R \/ at2 a i j = 3%R) ->
  (exists i j, in_arr a i j /\ at2 a i j = 0%R) -> (exists i j, in_arr a i j /\ at2 a i j = 3%R) ->
  exists m, ampthresh a 3 = Ok m.
Proof.
  intros V (i0 & j0 & I0 & V0) (i1 & j1 & I1 & V1).
  destruct (ampthresh_total a 3) as [|E]; auto. exfalso.
  apply ampthresh_err in E as [_ [H|[H|[(v & Mi & Ma)|(lo & hi & H & Mi & Ma & _ & Hi & W)]]]].
  - lia.
  - apply H. eauto.
  - pose proof (proj2 Mi i0 j0 I0). pose proof (proj2 Ma i1 j1 I1). lra.
  - assert (L : lo = 0%R).
    { apply (min_unique a); auto. split; [eauto|]. intros i j I. destruct (V i j I); lra. }
    assert (U : hi = 3%R).
    { apply (max_unique a); auto. split; [eauto|]. intros i j I. destruct (V i j I); lra. }
    subst lo hi. apply (W 1); [lia|].
    destruct (Hi 0 ltac:(lia)) as (f0 & F0 & E0). destruct (Hi 1 ltac:(lia)) as (f1 & F1 & E1).
    destruct (Hi 2 ltac:(lia)) as (f2 & F2 & E2). unfold in_bin in *.
    assert (B : forall (f : Z -> Z -> R) (P : Prop) i j, in_arr a i j -> (P -> f i j = 1%R) /\ (~ P -> f i j = 0%R) -> (0 <= f i j)%R).
    { intros f P i j _ [X Y]. destruct (classic P) as [p|p]; [rewrite X|rewrite Y]; auto; lra. }
    assert (Z1 : H 1 = 0%R).
    { rewrite E1. apply rsum2_all_zero. intros i j Hi' Hj'. destruct (F1 i j ltac:(split; auto)) as [_ A].
      apply A. destruct (V i j ltac:(split; auto)) as [->| ->]; intros [? [?|[? ?]]]; lra || lia. }
    assert (Z0 : (0 <= H 0%Z)%R).
    { rewrite E0. rewrite <- (rsum2_all_zero (fun _ _ => 0%R) (nr a) (nc a)) by auto. apply rsum2_le.
      intros i j Hi' Hj'. eapply B; [split; auto|apply F0; split; auto]. }
    assert (Z2 : (1 <= H 2%Z)%R).
    { rewrite E2. apply Rle_trans with (rsum2 (fun i j => if (i =? i1) && (j =? j1) then 1%R else 0%R) (nr a) (nc a)).
      - rewrite rsum2_pick. destruct I1 as [Q1 Q2].
        destruct (Z.leb_spec 0 i1), (Z.ltb_spec i1 (nr a)), (Z.leb_spec 0 j1), (Z.ltb_spec j1 (nc a)); cbn; lia || lra.
      - apply rsum2_le. intros i j Hi' Hj'.
        assert (P : (0 <= f2 i j)%R) by (eapply B; [split; auto|apply F2; split; auto]).
        destruct (Z.eqb_spec i i1); [|exact P]. destruct (Z.eqb_spec j j1); [|exact P]. cbn. subst i j.
        rewrite (proj1 (F2 i1 j1 I1)); [lra|]. rewrite V1. split; [lra|]. right. split; auto. }
    unfold valley. change (1 - 1) with 0. change (1 + 1) with 2. lra.
Qed.
Definition amp_ex : arr R := Arr 4 4 (fun i j => if (i =? 0) && (j =? 0) then 0%R else 3%R).
Definition ph_ex : arr R := Arr 4 4 (fun i j => IZR (i * i - j))%R.
Definition tie_ex : arr Z := Arr 2 2 (fun i j => if (i =? 0) && (j =? 1) then -1 else 0).
Definition dm_at (dx dy : R) (tie : arr Z) : dm_config := DmConfig 2 1 1 dx dy 0 1 false 1 delta3 tie (afull 2 2 1%R).
Lemma map_ex dx dy t1 t2 : map_h (dm_at dx dy t1) (dm_at dx dy t2) = 4 /\ map_w (dm_at dx dy t1) (dm_at dx dy t2) = 4.
Proof.
  assert (E : ZnearestE (2 * 2 * 1) = 4).
  { apply Znearest_imp. replace (2 * 2 * 1 - 4)%R with 0%R by ring. rewrite Rabs_R0. lra. }
  unfold map_h, map_w. cbn [c_nact c_ppact_cx c_ppact_cy dm_at]. rewrite E. auto.
Qed.
Lemma flatten_at (useDMs useFCM high : bool) dx dy t1 t2 : nr t1 = 2 -> nc t1 = 2 -> nr t2 = 2 -> nc t2 = 2 ->
  exists out ai use, flatten flat_ref (afull 2 2 7%R) (afull 2 2 8%R) 10 useDMs useFCM high 1 amp_ex ph_ex 5 0 0
    (dm_at dx dy t1) (dm_at dx dy t2) par_ex = Ok out /\
    pad_crop amp_ex [4; 4] 0%R = Ok ai /\ ampthresh ai 3 = Ok use /\ nr use = 4 /\ nc use = 4 /\
    at2 use 2 2 = true /\ at2 use 3 3 = true.
Proof.
  intros A1 A2 A3 A4.
  destruct (map_ex dx dy t1 t2) as [Mh Mw]. set (d1 := dm_at dx dy t1) in *. set (d2 := dm_at dx dy t2) in *.
  assert (W : wf amp_ex) by (split; cbn; lia).
  destruct (pad_crop_ok amp_ex 4 4 0%R W ltac:(lia) ltac:(lia)) as (ai & EA & R1 & R2 & VA).
  assert (VA' : forall i j, 0 <= i < 4 -> 0 <= j < 4 -> at2 ai i j = at2 amp_ex i j).
  { intros i j Hi Hj. rewrite VA by auto. change (nr amp_ex / 2) with 2. change (nc amp_ex / 2) with 2. change (4 / 2) with 2.
    replace (i - 2 + 2) with i by lia. replace (j - 2 + 2) with j by lia.
    rewrite (proj2 (in_arrb_spec amp_ex i j)) by (split; cbn; lia). reflexivity. }
  destruct (two_valued ai) as [use EU].
  { intros i j [Hi Hj]. rewrite VA' by lia. cbn. destruct ((i =? 0) && (j =? 0)); auto. }
  { exists 0, 0. split; [split; lia|]. rewrite VA' by lia. reflexivity. }
  { exists 2, 2. split; [split; lia|]. rewrite VA' by lia. reflexivity. }
  pose proof (ampthresh_separates _ _ _ EU) as (U1 & U2 & _ & U3 & _).
  assert (UU : at2 use 2 2 = true).
  { apply U3; [split; lia|]. split; [exists 2, 2; split; [split; lia|reflexivity]|]. intros i j [Hi Hj].
    rewrite !VA' by lia. cbn. destruct ((i =? 0) && (j =? 0)); lra. }
  assert (U4 : at2 use 3 3 = true).
  { apply U3; [split; lia|]. split; [exists 3, 3; split; [split; lia|reflexivity]|]. intros i j [Hi Hj].
    rewrite !VA' by lia. cbn. destruct ((i =? 0) && (j =? 0)); lra. }
  assert (M : ceil_odd (1 * 5) = 5).
  { unfold ceil_odd. rewrite Rmult_1_l, Zceil_IZR. reflexivity. }
  destruct (pad_crop_ok use 5 5 false ltac:(split; lia) ltac:(lia) ltac:(lia)) as (cr & EC & C1 & C2 & VC).
  assert (SU : some_usable cr).
  { exists 2, 2. split; [split; lia|]. rewrite VC by lia. rewrite U1, U2, R1, R2. cbn.
    rewrite (proj2 (in_arrb_spec use 2 2)) by (split; lia). auto. }
  assert (N1 : 0 < ZnearestE (Rmax 1 1)).
  { rewrite Rmax_left by lra. rewrite (Znearest_imp _ 1 1); [lia|]. rewrite Rminus_diag_eq, Rabs_R0 by auto. lra. }
  assert (N2 : 0 <= dm_size 2 1).
  { unfold dm_size. rewrite (Znearest_imp _ _ 4); [lia|]. replace (2 * 2 * 1 - 4)%R with 0%R by ring. rewrite Rabs_R0. lra. }
  assert (DO : forall t, nr t = 2 -> nc t = 2 -> dm_ok (dm_at dx dy t) 2).
  { intros t T1 T2. unfold dm_ok. cbn. repeat split; try lra; try lia; auto. }
  cut (exists out, flatten flat_ref (afull 2 2 7%R) (afull 2 2 8%R) 10 useDMs useFCM high 1 amp_ex ph_ex 5 0 0 d1 d2 par_ex = Ok out).
  { intros [out E]. exists out, ai, use. repeat split; auto; congruence. }
  eapply (flatten_def flat_ref _ _ _ _ _ _ _ _ _ _ _ _ d1 d2 par_ex 2 ai use cr); fold d1 d2; rewrite ?Mh, ?Mw; cbn [f_arrayExtFac par_ex]; rewrite ?M; auto;
    try lra; try lia; try (split; cbn; lia); try (cbn; lra); try (cbn; lia).
  - apply DO; auto.
  - apply DO; auto.
  - cbn. destruct useFCM; lia.
Qed.
Lemma flatten_ex (useDMs useFCM high : bool) : exists out,
  flatten flat_ref (afull 2 2 7%R) (afull 2 2 8%R) 10 useDMs useFCM high 1 amp_ex ph_ex 5 0 0
    (dm_ex 2 0 false tie_ex) (dm_ex 2 0 false (afull 2 2 0)) par_ex = Ok out.
Proof.
  destruct (flatten_at useDMs useFCM high 0 0 tie_ex (afull 2 2 0)) as (out & _ & _ & E & _); try reflexivity.
  exists out. exact E.
Qed.
