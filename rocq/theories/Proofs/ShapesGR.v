(** The antialiased shapes in binary64: symmetries. *)
From Coq Require Import ZArith Reals Bool List Lia Lra.
From Flocq Require Import Core BinarySingleNaN.
From Verif.Base Require Import Py Arr Sums F64.
From Verif.Model Require Import ShapesF ShapesG.
From Verif.Spec Require Import ShapesSpec ShapesFSpec ShapesGSpec.
From Verif.Proofs Require Import F64P F64N ShapesFP ShapesFQ ShapesFA ShapesGP ShapesGQ DarkHoleP.
Local Open Scope R_scope.
Local Notation B := (bpow radix2).
Local Notation neg := opposite.

(** ** Pixels *)
Definition fl (r : bool) (ns k : Z) : Z := if r then (ns - 1 - k)%Z else k.
Lemma zcount_fl f ns rp rq : zcount (fun p q => f (fl rp ns p) (fl rq ns q)) ns = zcount f ns.
Proof.
  assert (Q : forall g r, zcount (fun p q => g p (fl r ns q)) ns = zcount g ns) by (intros g []; [apply zcount_revq|reflexivity]).
  rewrite (Q (fun p q => f (fl rp ns p) q)). rewrite <- (zcount_swap f), <- (zcount_swap (fun p q => f (fl rp ns p) q)).
  apply (Q (fun p q => f q p)).
Qed.
Lemma edge_map one zero inside one' zero' inside' up ns x y x' y' rp rq :
  one' x' y' = one x y -> zero' x' y' = zero x y ->
  (forall p q, (0 <= p < ns)%Z -> (0 <= q < ns)%Z ->
     inside' (fadd (up (fl rq ns q)) x') (fadd (up (fl rp ns p)) y') = inside (fadd (up q) x) (fadd (up p) y)) ->
  edge_f one' zero' inside' up ns x' y' = edge_f one zero inside up ns x y.
Proof.
  intros E1 E0 Ei. unfold edge_f. rewrite E1, E0. destruct (zero x y); auto. destruct (one x y); auto. rewrite !gray_count.
  rewrite <- (zcount_fl _ ns rp rq). do 2 f_equal. apply zcount_ext. exact Ei.
Qed.
Lemma edge_swap one zero inside one' zero' inside' up ns x y :
  one' y x = one x y -> zero' y x = zero x y ->
  (forall p q, (0 <= p < ns)%Z -> (0 <= q < ns)%Z ->
     inside' (fadd (up p) y) (fadd (up q) x) = inside (fadd (up q) x) (fadd (up p) y)) ->
  edge_f one' zero' inside' up ns y x = edge_f one zero inside up ns x y.
Proof.
  intros E1 E0 Ei. unfold edge_f. rewrite E1, E0. destruct (zero x y); auto. destruct (one x y); auto. rewrite !gray_count.
  rewrite <- zcount_swap. do 2 f_equal. apply zcount_ext. exact Ei.
Qed.
Lemma xUp_fl ns q (r : bool) x x' : (0 <= q < ns)%Z -> (ns <= 2 ^ 50)%Z -> (if r then neg x x' else x' = x) ->
  if r then neg (fadd (xUp_f ns q) x) (fadd (xUp_f ns (fl r ns q)) x') else fadd (xUp_f ns (fl r ns q)) x' = fadd (xUp_f ns q) x.
Proof. intros Hq Hn. destruct r; cbn [fl]; intros H; [apply fadd_neg; [apply xUp_neg; auto|exact H]|rewrite H; reflexivity]. Qed.
Lemma int_within z : (Z.abs z <= 2 ^ 52)%Z -> within 60 (fofZ z).
Proof.
  intros H. destruct (fofZ_within 53 z ltac:(lia) ltac:(lia)) as [F W]. split; auto. eapply Rle_trans; [exact W|apply bpow_le; lia].
Qed.
Lemma sub_finite ns q z : (0 <= q < ns)%Z -> (ns <= 2 ^ 50)%Z -> (Z.abs z <= 2 ^ 52)%Z -> is_finite (fadd (xUp_f ns q) (fofZ z)) = true.
Proof.
  intros Hq Hn Hz. destruct (xUp_val ns q Hq Hn) as [_ W].
  apply (fadd_within 60 _ _ ltac:(lia) W (int_within z ltac:(lia))).
Qed.

(** ** Ellipse *)
Lemma ellipse_rho_half c s ix iy x y x' y' : neg x x' -> neg y y' -> ellipse_rho_f c s ix iy x' y' = ellipse_rho_f c s ix iy x y.
Proof.
  intros Nx Ny. unfold ellipse_rho_f. cbv zeta. f_equal. f_equal. f_equal.
  - f_equal. apply fsquare_neg. apply fadd_neg; apply fmul_neg; auto.
  - f_equal. apply fsquare_neg. apply fsub_neg; apply fmul_neg; auto.
Qed.
Lemma sq_zero_add z z' w : is_zero z -> is_zero z' -> fmul (fadd z' w) (fadd z' w) = fmul (fadd z w) (fadd z w).
Proof.
  intros [s ->] [s' ->]. destruct w as [sw|sw| |sw m e H]; try reflexivity. destruct s, s', sw; reflexivity.
Qed.
Lemma sq_zero_neg z z' w w' : is_zero z -> is_zero z' -> neg w w' \/ w' = w -> fmul (fadd z' w') (fadd z' w') = fmul (fadd z w) (fadd z w).
Proof.
  intros Hz Hz' [N| ->]; [|apply sq_zero_add; auto]. rewrite (sq_zero_add (fopp z) z'); auto.
  - apply fsquare_neg. apply fadd_neg; auto. apply neg_opp.
  - destruct Hz as [s ->]. eexists. reflexivity.
Qed.
Lemma fmul_zero s y : is_zero s -> is_finite y = true -> is_zero (fmul s y).
Proof. intros [t ->] F. destruct y; try discriminate; eexists; reflexivity. Qed.
Lemma ellipse_rho_up c s ix iy x y x' y' : is_zero s -> is_finite x = true -> is_finite y = true ->
  neg x x' \/ x' = x -> neg y y' \/ y' = y -> ellipse_rho_f c s ix iy x' y' = ellipse_rho_f c s ix iy x y.
Proof.
  intros Hs Fx Fy Nx Ny.
  assert (Fx' : is_finite x' = true) by (destruct Nx as [N| ->]; [rewrite (neg_fin _ _ N)|]; auto).
  assert (Fy' : is_finite y' = true) by (destruct Ny as [N| ->]; [rewrite (neg_fin _ _ N)|]; auto).
  unfold ellipse_rho_f. cbv zeta. f_equal. f_equal. f_equal; f_equal.
  - rewrite !(fadd_comm (fmul c _)). apply sq_zero_neg; [apply fmul_zero; auto|apply fmul_zero; auto|].
    destruct Nx as [N| ->]; [left; apply fmul_neg; auto|right; reflexivity].
  - rewrite !fsub_add. apply sq_zero_neg; [apply fmul_zero; auto|apply fmul_zero; auto|].
    destruct Ny as [N| ->]; [left; apply opp_neg, fmul_neg; auto|right; reflexivity].
Qed.
Lemma ellipse_rho_swap c s s' ix iy x y : is_zero s -> is_zero s' -> is_finite x = true -> is_finite y = true ->
  ellipse_rho_f c s' iy ix y x = ellipse_rho_f c s ix iy x y.
Proof.
  intros Hs Hs' Fx Fy. unfold ellipse_rho_f. cbv zeta. f_equal. f_equal. rewrite fadd_comm. f_equal; f_equal.
  - rewrite fsub_add, (fadd_comm (fmul c x)). apply sq_zero_neg; [apply fmul_zero; auto|apply fmul_zero; auto|]. left. apply neg_opp.
  - rewrite fsub_add, (fadd_comm (fmul c y)). apply sq_zero_neg; [apply fmul_zero; auto|apply fmul_zero; auto|].
    left. apply neg_sym, neg_opp.
Qed.
Lemma npmax2_comm a b : npmax2 (Babs a) (Babs b) = npmax2 (Babs b) (Babs a).
Proof.
  unfold npmax2. destruct (fisnan (Babs a)) eqn:Na.
  - destruct (fisnan (Babs b)) eqn:Nb; auto. destruct (Babs a), (Babs b); try discriminate; reflexivity.
  - destruct (fisnan (Babs b)) eqn:Nb; auto.
    assert (K : forall a b : f64, fisnan (Babs a) = false -> fisnan (Babs b) = false ->
      match SpecFloat.SFcompare (B2SF (Babs a)) (B2SF (Babs b)) with Some Lt => flt (Babs b) (Babs a) = false | Some Gt => flt (Babs b) (Babs a) = true | Some Eq => Babs a = Babs b | None => False end).
    { clear. intros a b. unfold flt, Bltb, SpecFloat.SFltb. destruct a as [sa|sa| |sa ma ea Ha], b as [sb|sb| |sb mb eb Hb]; try discriminate; intros _ _; try reflexivity.
      cbn [Babs B2SF SpecFloat.SFcompare]. rewrite (Z.compare_antisym ea eb). destruct (Z.compare_spec ea eb) as [E|E|E]; cbn [CompOpp]; auto.
      change (Pos.compare_cont Eq ma mb) with (ma ?= mb)%positive. change (Pos.compare_cont Eq mb ma) with (mb ?= ma)%positive.
      rewrite (Pos.compare_antisym ma mb). destruct (Pos.compare_spec ma mb) as [E'|E'|E']; cbn [CompOpp]; auto.
      subst. f_equal. apply Eqdep_dec.UIP_dec, bool_dec. }
    specialize (K a b Na Nb). unfold flt in *. unfold Bltb at 1, SpecFloat.SFltb at 1.
    destruct (SpecFloat.SFcompare (B2SF (Babs a)) (B2SF (Babs b))) as [[]|]; [rewrite K; destruct (Bltb _ _); reflexivity|rewrite K; reflexivity|rewrite K; reflexivity|tauto].
Qed.

(** What a call that returns computes. *)
Lemma ellipse_open M nx ny rx ry rot xo yo ns d m : ellipse_f M nx ny rx ry rot xo yo ns d = Ok m ->
  let X := axis_f nx xo in let Y := axis_f ny yo in
  let t := fmul (fdiv fpi (fofZ 180)) rot in
  (1 < nx)%Z /\ (1 < ny)%Z /\ (0 < ns)%Z /\
  exists ix iy, inv_pow2 M rx = Ok ix /\ inv_pow2 M ry = Ok iy /\
  let rho := ellipse_rho_f (lcos M t) (lsin M t) ix iy in
  let h := npmax2 (Babs (fsub (rho (X 0%Z) (Y 1%Z)) (rho (X 0%Z) (Y 0%Z)))) (Babs (fsub (rho (X 1%Z) (Y 0%Z)) (rho (X 0%Z) (Y 0%Z)))) in
  m = Arr ny nx (fun i j => dark_f d (edge_f (fun x y => flt (Babs (rho x y)) (fsub fhalf h)) (fun x y => flt (fadd fhalf h) (Babs (rho x y)))
        (fun x y => fle (rho x y) fhalf) (xUpE_f (fsub (X 1%Z) (X 0%Z)) ns) ns (X j) (Y i))).
Proof.
  intros H. unfold ellipse_f in H. do 4 (apply guard_ok in H as [? H]). apply guard_ok in H as [G5 H]. cbv zeta in H.
  apply guard_ok in H as [G6 H]. apply bind_ok in H as (ix & Hx & H). apply bind_ok in H as (iy & Hy & H). apply guard_ok in H as [G7 H].
  apply ok_inj in H. apply Z.ltb_lt in G5, G6, G7. cbv zeta. split; [exact G6|]. split; [exact G7|]. split; [exact G5|].
  exists ix, iy. split; [exact Hx|]. split; [exact Hy|]. symmetry. exact H.
Qed.
Lemma xUpE_one ns : xUpE_f (fofZ 1) ns = xUp_f ns. Proof. reflexivity. Qed.
Lemma pixel_coord n off a i i' : (0 <= i < n)%Z -> (0 <= i' < n)%Z -> (n <= 2 ^ 50)%Z -> whole off a ->
  shift_from n a i' = (- shift_from n a i)%Z -> neg (axis_f n off i) (axis_f n off i').
Proof.
  intros Hi Hi' Hn Ho E. rewrite !(axis_whole n off a) by auto. rewrite E. apply fofZ_neg.
  destruct Ho as (_ & _ & Ha). pose proof (shift_bound n a i Hi Hn Ha). lia.
Qed.
Lemma ellipse_half_turn M nx ny rx ry rot xo yo ns d m a b i j i' j' : sizes nx ny ns -> whole xo a -> whole yo b ->
  ellipse_f M nx ny rx ry rot xo yo ns d = Ok m -> in_arr m i j -> in_arr m i' j' ->
  shift_from nx a j' = (- shift_from nx a j)%Z -> shift_from ny b i' = (- shift_from ny b i)%Z -> at2 m i' j' = at2 m i j.
Proof.
  intros (Hx & Hy & Hn) Ha Hb H. apply ellipse_open in H. cbv zeta in H. destruct H as (G6 & G7 & G5 & ix & iy & _ & _ & ->).
  intros [Ii Ij] [Ii' Ij'] Ej Ei. cbn [nr nc at2] in *. f_equal. rewrite (dx_whole nx xo a) by (auto; lia). rewrite xUpE_one.
  pose proof (pixel_coord nx xo a j j' Ij Ij' Hx Ha Ej) as Nj. pose proof (pixel_coord ny yo b i i' Ii Ii' Hy Hb Ei) as Ni.
  apply (edge_map _ _ _ _ _ _ _ _ _ _ _ _ true true); cbn beta.
  - rewrite (ellipse_rho_half _ _ _ _ _ _ _ _ Nj Ni). reflexivity.
  - rewrite (ellipse_rho_half _ _ _ _ _ _ _ _ Nj Ni). reflexivity.
  - intros p q Hp Hq. f_equal. apply ellipse_rho_half; [apply (xUp_fl ns q true)|apply (xUp_fl ns p true)]; auto; lia.
Qed.
Lemma rot_zero M rot : exact_at_zero M -> is_zero rot -> let t := fmul (fdiv fpi (fofZ 180)) rot in lcos M t = fofZ 1 /\ is_zero (lsin M t).
Proof.
  intros HM Hr. cbv zeta. apply HM. rewrite fmul_comm. apply fmul_zero; auto.
Qed.
Lemma ellipse_mirror M nx ny rx ry rot xo yo ns d m a b i j i' j' : exact_at_zero M -> is_zero rot -> sizes nx ny ns -> whole xo a -> whole yo b ->
  ellipse_f M nx ny rx ry rot xo yo ns d = Ok m -> in_arr m i j -> in_arr m i' j' ->
  Z.abs (shift_from nx a j') = Z.abs (shift_from nx a j) -> Z.abs (shift_from ny b i') = Z.abs (shift_from ny b i) -> at2 m i' j' = at2 m i j.
Proof.
  intros HM Hr (Hx & Hy & Hn) Ha Hb H. apply ellipse_open in H. cbv zeta in H. destruct H as (G6 & G7 & G5 & ix & iy & _ & _ & ->).
  intros [Ii Ij] [Ii' Ij'] Ej Ei. cbn [nr nc at2] in *. f_equal. rewrite (dx_whole nx xo a) by (auto; lia). rewrite xUpE_one.
  destruct (rot_zero M rot HM Hr) as [_ Hs].
  assert (K : forall n off c k k', (0 <= k < n)%Z -> (0 <= k' < n)%Z -> (n <= 2 ^ 50)%Z -> whole off c -> Z.abs (shift_from n c k') = Z.abs (shift_from n c k) ->
    exists r : bool, if r then neg (axis_f n off k) (axis_f n off k') else axis_f n off k' = axis_f n off k).
  { intros n off c k k' Hk Hk' Hc Ho E. assert (shift_from n c k' = - shift_from n c k \/ shift_from n c k' = shift_from n c k)%Z as [E'|E'] by lia.
    - exists true. apply (pixel_coord n off c); auto.
    - exists false. rewrite !(axis_whole n off c) by auto. rewrite E'. reflexivity. }
  destruct (K nx xo a j j' Ij Ij' Hx Ha Ej) as [rq Nj]. destruct (K ny yo b i i' Ii Ii' Hy Hb Ei) as [rp Ni]. clear K.
  assert (W : forall (r : bool) x x', (if r then neg x x' else x' = x) -> neg x x' \/ x' = x) by (intros []; auto).
  assert (F : forall n off c k, (0 <= k < n)%Z -> (n <= 2 ^ 50)%Z -> whole off c -> is_finite (axis_f n off k) = true /\
    forall q, (0 <= q < ns)%Z -> is_finite (fadd (xUp_f ns q) (axis_f n off k)) = true).
  { intros n off c k Hk Hc Ho. rewrite (axis_whole n off c) by auto. destruct Ho as (_ & _ & Hc'). pose proof (shift_bound n c k Hk Hc Hc').
    split; [apply (fofZ_spec (shift_from n c k)); lia|]. intros q Hq. apply sub_finite; auto; lia. }
  destruct (F nx xo a j Ij Hx Ha) as [Fj Fq]. destruct (F ny yo b i Ii Hy Hb) as [Fi Fp].
  pose proof (ellipse_rho_up (lcos M (fmul (fdiv fpi (fofZ 180)) rot)) _ ix iy _ _ _ _ Hs Fj Fi (W _ _ _ Nj) (W _ _ _ Ni)) as E.
  apply (edge_map _ _ _ _ _ _ _ _ _ _ _ _ rp rq); cbn beta.
  - rewrite E. reflexivity.
  - rewrite E. reflexivity.
  - intros p q Hp Hq. f_equal. apply ellipse_rho_up; auto; eapply W; apply xUp_fl; auto; lia.
Qed.
Lemma ellipse_transpose M nx ny rx ry rot rot' xo yo ns d m m' a b i j : exact_at_zero M -> is_zero rot -> is_zero rot' -> sizes nx ny ns -> whole xo a -> whole yo b ->
  ellipse_f M nx ny rx ry rot xo yo ns d = Ok m -> ellipse_f M ny nx ry rx rot' yo xo ns d = Ok m' -> in_arr m i j -> at2 m' j i = at2 m i j.
Proof.
  intros HM Hr Hr' (Hx & Hy & Hn) Ha Hb H H'. apply ellipse_open in H. cbv zeta in H. destruct H as (G6 & G7 & G5 & ix & iy & Px & Py & ->).
  apply ellipse_open in H'. cbv zeta in H'. destruct H' as (_ & _ & _ & iy' & ix' & Py' & Px' & ->).
  rewrite Px in Px'. rewrite Py in Py'. apply ok_inj in Px', Py'. subst ix' iy'.
  intros [Ii Ij]. cbn [nr nc at2] in *. f_equal. rewrite (dx_whole nx xo a), (dx_whole ny yo b) by (auto; lia). rewrite xUpE_one.
  destruct (rot_zero M rot HM Hr) as [Hc Hs]. destruct (rot_zero M rot' HM Hr') as [Hc' Hs']. rewrite Hc, Hc'.
  set (s := lsin M (fmul (fdiv fpi (fofZ 180)) rot)) in *. set (s' := lsin M (fmul (fdiv fpi (fofZ 180)) rot')) in *.
  assert (F : forall n off c k, (0 <= k < n)%Z -> (n <= 2 ^ 50)%Z -> whole off c -> is_finite (axis_f n off k) = true /\
    forall q, (0 <= q < ns)%Z -> is_finite (fadd (xUp_f ns q) (axis_f n off k)) = true).
  { intros n off c k Hk Hc1 Ho. rewrite (axis_whole n off c) by auto. destruct Ho as (_ & _ & Hc2). pose proof (shift_bound n c k Hk Hc1 Hc2).
    split; [apply (fofZ_spec (shift_from n c k)); lia|]. intros q Hq. apply sub_finite; auto; lia. }
  assert (FX : forall k, (0 <= k < nx)%Z -> is_finite (axis_f nx xo k) = true) by (intros; eapply F; eauto).
  assert (FY : forall k, (0 <= k < ny)%Z -> is_finite (axis_f ny yo k) = true) by (intros; eapply F; eauto).
  pose proof (ellipse_rho_swap (fofZ 1) s s' ix iy) as E.
  rewrite (E (axis_f nx xo 0) (axis_f ny yo 0)), (E (axis_f nx xo 1) (axis_f ny yo 0)), (E (axis_f nx xo 0) (axis_f ny yo 1)) by (auto; first [apply FX|apply FY]; lia).
  rewrite npmax2_comm. apply edge_swap; cbn beta.
  - rewrite E by auto. reflexivity.
  - rewrite E by auto. reflexivity.
  - intros p q Hp Hq. rewrite E; auto; eapply F; eauto.
Qed.

(** ** Shifts *)
Lemma rectangle_shift M nx ny nx' ny' w h xo yo xo' yo' rot ns d m m' a b a' b' i j i' j' :
  sizes nx ny ns -> sizes nx' ny' ns -> whole xo a -> whole yo b -> whole xo' a' -> whole yo' b' ->
  rectangle_f M nx ny w h xo yo rot ns d = Ok m -> rectangle_f M nx' ny' w h xo' yo' rot ns d = Ok m' -> in_arr m i j -> in_arr m' i' j' ->
  shift_from nx' a' j' = shift_from nx a j -> shift_from ny' b' i' = shift_from ny b i -> at2 m' i' j' = at2 m i j.
Proof.
  intros (Hx & Hy & Hn) (Hx' & Hy' & _) Ha Hb Ha' Hb' H H' I I' Ej Ei.
  unfold rectangle_f in H, H'. do 5 (apply guard_ok in H as [_ H]). do 5 (apply guard_ok in H' as [_ H']). cbv zeta in H, H'.
  apply guard_ok in H as [G H]. apply guard_ok in H' as [G' H']. apply Z.ltb_lt in G, G'.
  rewrite (dx_whole nx xo a) in H by (auto; lia). rewrite (dx_whole nx' xo' a') in H' by (auto; lia).
  ok_open H. ok_open H'. destruct I as [Ii Ij], I' as [Ii' Ij']. cbn [nr nc at2] in *.
  rewrite (axis_whole nx xo a), (axis_whole ny yo b), (axis_whole nx' xo' a'), (axis_whole ny' yo' b') by auto. rewrite Ej, Ei. reflexivity.
Qed.
Lemma segments_shift M nSeg rIn rOut nx ny nx' ny' xo yo xo' yo' ao ar ns dT m m' a b a' b' i j i' j' :
  sizes nx ny ns -> sizes nx' ny' ns -> whole xo a -> whole yo b -> whole xo' a' -> whole yo' b' ->
  annular_segments_f M nSeg rIn rOut nx ny xo yo ao ar ns dT = Ok m -> annular_segments_f M nSeg rIn rOut nx' ny' xo' yo' ao ar ns dT = Ok m' ->
  in_arr m i j -> in_arr m' i' j' ->
  shift_from nx' a' j' = shift_from nx a j -> shift_from ny' b' i' = shift_from ny b i -> at2 m' i' j' = at2 m i j.
Proof.
  intros (Hx & Hy & Hn) (Hx' & Hy' & _) Ha Hb Ha' Hb' H H' I I' Ej Ei.
  unfold annular_segments_f in H, H'. do 8 (apply guard_ok in H as [_ H]). do 8 (apply guard_ok in H' as [_ H']). cbv zeta in H, H'.
  apply guard_ok in H as [G H]. apply guard_ok in H' as [G' H']. apply Z.ltb_lt in G, G'. apply guard_ok in H as [_ H]. apply guard_ok in H' as [_ H'].
  rewrite (dx_whole nx xo a) in H by (auto; lia). rewrite (dx_whole nx' xo' a') in H' by (auto; lia).
  ok_open H. ok_open H'. destruct I as [Ii Ij], I' as [Ii' Ij']. cbn [nr nc at2] in *.
  rewrite (axis_whole nx xo a), (axis_whole ny yo b), (axis_whole nx' xo' a'), (axis_whole ny' yo' b') by auto. rewrite Ej, Ei. reflexivity.
Qed.

(** ** Mirror of a rectangle *)
Lemma sub_nonzero ns p b : (0 <= p < ns)%Z -> (ns <= 2 ^ 26)%Z -> (b <> 0)%Z -> (Z.abs b <= 2 ^ 52)%Z -> ~ is_zero (fadd (xUp_f ns p) (fofZ b)).
Proof.
  intros Hp Hn Nb Hb [s E]. pose proof (xUp_val ns p Hp ltac:(lia)) as [Vp Wp]. destruct (up_err ns p Hp Hn) as [E1 E2]. pose proof u_tiny as U.
  destruct (fadd_within 60 _ _ ltac:(lia) Wp (int_within b ltac:(lia))) as [V _].
  rewrite E in V. cbn in V. rewrite Vp, (proj1 (fofZ_spec b ltac:(lia))) in V.
  assert (Hup : Rabs (up ns p) <= 3 / 4).
  { replace (up ns p) with ((up ns p - sub ns p) + sub ns p) by ring. eapply Rle_trans; [apply Rabs_triang|]. lra. }
  apply Rabs_le_inv in Hup. destruct (Z_lt_le_dec 0 b) as [P|P].
  - assert (1 <= IZR b) by (apply IZR_le; lia).
    assert (rnd64 (/ 4) <= rnd64 (up ns p + IZR b)) by (apply rnd_mono; lra).
    rewrite (rnd_id (/ 4)) in H0; [lra|]. apply (generic_format_bpow radix2 flt_exp (-2)). cbv. discriminate.
  - assert (IZR b <= -1) by (apply IZR_le; lia).
    assert (rnd64 (up ns p + IZR b) <= rnd64 (- / 4)) by (apply rnd_mono; lra).
    rewrite rnd_opp, (rnd_id (/ 4)) in H0; [lra|]. apply (generic_format_bpow radix2 flt_exp (-2)). cbv. discriminate.
Qed.
Lemma rect_uv_mirror M r r' x y y' : symmetric_libm M -> neg r r' -> neg y y' -> ~ is_zero y ->
  rect_u_f M r' x y' = rect_u_f M r x y /\ neg (rect_v_f M r x y) (rect_v_f M r' x y').
Proof.
  intros [Mc Ma] Nr Ny Z. assert (Ey : y' = fopp y) by (destruct Ny as [E|[E _]]; [exact E|contradiction]). subst y'.
  pose proof (fsub_neg _ _ _ _ (Ma y x Z) Nr) as Nt. destruct (Mc _ _ Nt) as [C S].
  assert (Er : rho_f x (fopp y) = rho_f x y) by (unfold rho_f; rewrite (fsquare_neg y (fopp y)) by apply neg_opp; reflexivity).
  unfold rect_u_f, rect_v_f. rewrite Er, C. split; [reflexivity|]. apply fmul_neg, S.
Qed.
Lemma rectangle_mirror M nx ny w h xo yo rot rot' ns d m m' a b i j i' : symmetric_libm M -> opposite rot rot' ->
  sizes nx ny ns -> whole xo a -> whole yo b ->
  rectangle_f M nx ny w h xo yo rot ns d = Ok m -> rectangle_f M nx ny w h xo yo rot' ns d = Ok m' -> in_arr m i j -> in_arr m' i' j ->
  shift_from ny b i' = (- shift_from ny b i)%Z -> shift_from ny b i <> 0%Z -> at2 m' i' j = at2 m i j.
Proof.
  intros HM Nr (Hx & Hy & Hn) Ha Hb H H' I I' Ei Ni.
  unfold rectangle_f in H, H'. do 5 (apply guard_ok in H as [_ H]). do 4 (apply guard_ok in H' as [_ H']). apply guard_ok in H' as [G5 H']. cbv zeta in H, H'.
  apply guard_ok in H as [_ H]. apply guard_ok in H' as [G' H']. apply Z.ltb_lt in G', G5.
  rewrite (dx_whole nx xo a) in H by (auto; lia). rewrite (dx_whole nx xo a) in H' by (auto; lia).
  ok_open H. ok_open H'. destruct I as [Ii Ij], I' as [Ii' _]. cbn [nr nc at2] in *. f_equal.
  set (hh := fmul fsqrt2 (fofZ 1)). set (r := fdiv (fmul rot fpi) (fofZ 180)). set (r' := fdiv (fmul rot' fpi) (fofZ 180)).
  assert (V180 : is_finite (fofZ 180) = true /\ fval (fofZ 180) <> 0).
  { destruct (fofZ_spec 180 ltac:(lia)) as [V F]. split; auto. rewrite V. lra. }
  assert (V2 : is_finite (fofZ 2) = true /\ fval (fofZ 2) <> 0).
  { destruct (fofZ_spec 2 ltac:(lia)) as [V F]. split; auto. rewrite V. lra. }
  assert (Nrr : neg r r') by (apply fdiv_neg; [apply fmul_neg_l, Nr|apply V180|apply V180]).
  assert (Nh : neg (fdiv h (fofZ 2)) (fdiv (fopp h) (fofZ 2))) by (apply fdiv_neg; [apply neg_opp|apply V2|apply V2]).
  set (h2 := fdiv h (fofZ 2)) in *. set (h2' := fdiv (fopp h) (fofZ 2)) in *.
  assert (N1 : neg (fsub h2 hh) (fadd h2' hh)) by (rewrite fsub_add; apply fadd_neg; [exact Nh|apply neg_sym, neg_opp]).
  assert (N2 : neg (fadd h2 hh) (fsub h2' hh)) by (rewrite fsub_add; apply fadd_neg; [exact Nh|apply neg_opp]).
  rewrite !(axis_whole nx xo a), !(axis_whole ny yo b) by auto. rewrite Ei.
  pose proof (proj2 (proj2 Hb)) as Hb'. pose proof (shift_bound ny b i Ii Hy Hb') as Sb. set (z := shift_from ny b i) in *.
  assert (NZ : ~ is_zero (fofZ z)).
  { intros [s E]. apply (f_equal fval) in E. rewrite (proj1 (fofZ_spec z ltac:(lia))) in E. cbn in E. apply eq_IZR in E. contradiction. }
  set (x := fofZ (shift_from nx a j)) in *.
  assert (K : forall x y y', neg y y' -> ~ is_zero y ->
    rect_u_f M r' x y' = rect_u_f M r x y /\ (forall c c', neg c c' -> fle (rect_v_f M r' x y') c = fle c' (rect_v_f M r x y)) /\
    (forall c c', neg c c' -> fle c' (rect_v_f M r' x y') = fle (rect_v_f M r x y) c)).
  { intros x0 y0 y0' Ny Zy. destruct (rect_uv_mirror M r r' x0 y0 y0' HM Nrr Ny Zy) as [Eu Nv]. split; [exact Eu|]. split.
    - intros c c' Nc. apply fle_neg; [exact Nv|apply neg_sym, Nc].
    - intros c c' Nc. apply fle_neg; [exact Nc|exact Nv]. }
  destruct (K x (fofZ z) (fofZ (- z)) (fofZ_neg z ltac:(lia)) NZ) as (Eu & El & Eg).
  apply (edge_map _ _ _ _ _ _ _ _ _ _ _ _ true false); cbn beta.
  - rewrite Eu, (El _ _ N1), (Eg _ _ N1). rewrite <- !andb_assoc. do 2 f_equal. apply andb_comm.
  - rewrite Eu, (Eg _ _ (neg_sym _ _ N2)), (El _ _ (neg_sym _ _ N2)). rewrite <- !orb_assoc. do 2 f_equal. apply orb_comm.
  - intros p q Hp Hq. cbn [fl].
    destruct (K (fadd (xUp_f ns q) x) _ _ (fadd_neg _ _ _ _ (xUp_neg ns p Hp ltac:(lia)) (fofZ_neg z ltac:(lia))) (sub_nonzero ns p z Hp Hn Ni ltac:(lia))) as (Eu' & El' & Eg').
    rewrite Eu', (El' _ _ Nh), (Eg' _ _ Nh). rewrite <- !andb_assoc. do 2 f_equal. apply andb_comm.
Qed.
