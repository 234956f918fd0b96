(** Consequences for the plate-scale search: range, matching images, brightness. *)
From Coq Require Import ZArith Bool List String Reals Lra Lia Permutation Sorted FunctionalExtensionality.
From Flocq Require Import Core.Raux.
From Coquelicot Require Import Complex.
From Verif.Base Require Import Py Arr Vec Sums CSum.
From Verif.Model Require Import Fits Fresnel Mft Yaml DarkHole GainMap PsfFit PlateSolv.
From Verif.Spec Require Import FitsSpec MftSpec DarkHoleSpec PlateSolvSpec.
From Verif.Proofs Require Import FitsP FresnelP MftP DarkHoleP GainMapP PsfFitP PupilUtilC PlateSolvP.
Import ListNotations.
Open Scope string_scope.
Open Scope Z_scope.

(** ** Sorted lists *)
Lemma sorted_unique (l l' : list R) : Permutation l l' -> StronglySorted Rle l -> StronglySorted Rle l' -> l = l'.
Proof.
  revert l'. induction l as [|a l IH]; intros l' P S S'.
  - apply Permutation_nil in P. auto.
  - destruct l' as [|b l']; [apply Permutation_sym, Permutation_nil in P; discriminate|].
    assert (a = b).
    { inversion S as [|? ? Sa Fa]; inversion S' as [|? ? Sb Fb]; subst. rewrite Forall_forall in Fa, Fb.
      assert (In a (b :: l')) by (apply (Permutation_in _ P); left; auto). assert (In b (a :: l)) by (apply (Permutation_in _ (Permutation_sym P)); left; auto).
      destruct H as [?|H], H0 as [?|H0]; auto. apply Rle_antisym; auto. }
    subst b. f_equal. inversion S; inversion S'; subst. apply IH; auto. eapply Permutation_cons_inv; eauto.
Qed.
Lemma sorted_scale k l : (0 <= k)%R -> StronglySorted Rle l -> StronglySorted Rle (map (Rmult k) l).
Proof.
  intros Hk. induction 1 as [|a l S IH F]; cbn [map]; constructor; auto. rewrite Forall_forall in *. intros y Hy.
  apply in_map_iff in Hy as (x & <- & Hx). apply Rmult_le_compat_l; auto.
Qed.
Lemma npsort_scale k l : (0 <= k)%R -> npsort (map (Rmult k) l) = map (Rmult k) (npsort l).
Proof.
  intros Hk. apply sorted_unique.
  - apply Permutation_trans with (map (Rmult k) l); [apply Permutation_sym, npsort_perm|]. apply Permutation_map. apply npsort_perm.
  - apply npsort_sorted.
  - apply sorted_scale; [auto|apply npsort_sorted].
Qed.
Lemma nth_scale k l i : nth i (map (Rmult k) l) 0%R = (k * nth i l 0)%R.
Proof. replace 0%R with (k * 0)%R at 1 by ring. apply map_nth. Qed.
Lemma percentile_scale k l p : (0 <= k)%R -> percentile (map (Rmult k) l) p = (do v <- percentile l p; Ok (k * v)%R).
Proof.
  intros Hk. unfold percentile, guard. destruct (Rleb 0 p && Rleb p 100); cbn [bind]; [|reflexivity].
  rewrite npsort_scale by auto. unfold len, nthR. rewrite map_length. rewrite !nth_scale. f_equal. ring.
Qed.
Lemma is_percentile_unique a p v v' : is_percentile a p v -> is_percentile a p v' -> v = v'.
Proof.
  intros (s & k & P & S & K & T & ->) (s' & k' & P' & S' & K' & T' & ->).
  assert (s = s') by (apply sorted_unique; auto; eapply Permutation_trans; [apply Permutation_sym; eauto|auto]). subst s'.
  assert (k = k').
  { cbn zeta in *. set (pos := (p / 100 * (IZR (Z.of_nat (List.length s)) - 1))%R) in *. clearbody pos.
    assert (IZR k < IZR k' + 1)%R by lra. assert (IZR k' < IZR k + 1)%R by lra. rewrite <- plus_IZR in *. apply lt_IZR in H, H0. lia. }
  subst k'. reflexivity.
Qed.
Lemma elements_scale k (a b : arr R) : nr b = nr a -> nc b = nc a -> (forall i j, in_arr a i j -> at2 b i j = (k * at2 a i j)%R) ->
  elements b = map (Rmult k) (elements a).
Proof.
  intros E1 E2 V. unfold elements. rewrite E1, E2, map_map. apply map_ext_in. intros [i j] H. apply in_indices in H. apply V. split; cbn [fst snd] in *; lia.
Qed.
Lemma is_percentile_scale k a b p v : (0 <= k)%R -> nr b = nr a -> nc b = nc a -> (forall i j, in_arr a i j -> at2 b i j = (k * at2 a i j)%R) ->
  is_percentile a p v -> is_percentile b p (k * v)%R.
Proof.
  intros Hk E1 E2 V (s & i & P & S & K). exists (map (Rmult k) s), i. rewrite (elements_scale k a b) by auto.
  split; [apply Permutation_map; auto|]. split; [apply sorted_scale; auto|]. rewrite map_length. destruct K as (K & T & ->). cbn zeta in *.
  split; [auto|]. split; [auto|]. rewrite !nth_scale. ring.
Qed.
Lemma rescaled_unique guess g pix T T' : rescaled guess g pix T -> rescaled guess g pix T' -> nr T = nr T' /\ nc T = nc T' /\ forall u v, at2 T u v = at2 T' u v.
Proof.
  intros (F & F1 & F2 & FV & A & B & C) (F' & F1' & F2' & FV' & A' & B' & C'). split; [congruence|]. split; [congruence|].
  assert (F = F').
  { destruct F as [n m f], F' as [n' m' f']. cbn [nr nc at2] in *. subst. f_equal. extensionality u. extensionality v. rewrite FV, FV'. reflexivity. }
  subst F'. intros u v. rewrite C, C'. reflexivity.
Qed.
Lemma residual_unique img guess g p pix r r' : 0 < nr img -> 0 < nc img -> residual img guess g p pix r -> residual img guess g p pix r' -> r = r'.
Proof.
  intros Hn Hm (T & mv & tv & gm & R1 & M1 & T1 & G1 & V1) (T' & mv' & tv' & gm' & R2 & M2 & T2 & G2 & V2).
  pose proof (rescaled_unique _ _ _ _ _ R1 R2) as (E1 & E2 & EV). pose proof (is_percentile_unique _ _ _ _ M1 M2). subst mv'.
  assert (is_percentile T p tv').
  { replace tv' with (1 * tv')%R by ring. apply (is_percentile_scale 1 T' T); auto; try lra. intros i j _. rewrite EV. ring. }
  pose proof (is_percentile_unique _ _ _ _ T1 H). subst tv'. pose proof (is_max_unique _ _ _ G1 G2). subst gm'.
  destruct r as [r|], r' as [r'|]; [|tauto|tauto|reflexivity]. destruct V1 as (_ & _ & m & A & B & C), V2 as (_ & _ & m' & A' & B' & C').
  assert (0 < IZR (nr img) * IZR (nc img))%R by (apply Rmult_lt_0_compat; apply IZR_lt; auto).
  assert (m = m'). { apply (Rmult_eq_reg_l (IZR (nr img) * IZR (nc img))); [|lra]. rewrite A, A'. apply rsum2_ext. intros. rewrite EV. reflexivity. }
  subst m'. f_equal. assert (r ^ 2 = r' ^ 2)%R. { apply (Rmult_eq_reg_l (IZR (nr img) * IZR (nc img))); [|lra]. rewrite C, C'. apply rsum2_ext. intros. rewrite EV. reflexivity. }
  rewrite <- !Rsqr_pow2 in H1. apply Rsqr_inj; auto.
Qed.

(** ** Range *)
Lemma trial_scale_range g w n i : (0 < g)%R -> (0 < w)%R -> 0 <= i < Zceil n -> (g * (1 - w) <= trial_scale g w n i < g * (1 + w))%R.
Proof.
  intros Hg Hw Hi. assert (IZR i < n)%R.
  { destruct (Rlt_le_dec (IZR i) n) as [|Q]; [auto|]. apply (Zceil_glb i) in Q. lia. }
  assert (0 <= IZR i)%R by (apply IZR_le; lia). assert (0 < n)%R by lra. unfold trial_scale.
  assert (Q : (2 * g * w / n * IZR i = 2 * (g * w) * (IZR i / n))%R) by (field; lra). rewrite Q.
  assert (0 <= IZR i / n < 1)%R. { split; [apply Rmult_le_pos; [auto|]; left; apply Rinv_0_lt_compat; auto|]. apply Rmult_lt_reg_r with n; [auto|]. unfold Rdiv. rewrite Rmult_assoc, Rinv_l by lra. lra. }
  assert (0 < g * w)%R by (apply Rmult_lt_0_compat; auto). split; nra.
Qed.
Lemma best_range spline img guess g consts best pix rs w : platesolv spline img guess g consts = Ok (best, pix, rs) -> has_real consts "ps_wid" w -> (0 < w)%R ->
  (forall x, In x pix -> g * (1 - w) <= x < g * (1 + w))%R /\ (forall x, In x best -> g * (1 - w) <= x /\ exists y, In y pix /\ x < y)%R.
Proof.
  intros H W Hw. apply platesolv_ok in H as (Hg & S & H1 & H2 & w' & n & p & st & lo & hi & (W' & PS) & W0 & P & St & -> & N4 & Pos & RS & Lo & Hi & Bn & Bs).
  assert (w' = w). { destruct W as (u & A & B), W' as (u' & A' & B'). apply item_has in A, A'. apply number_ok in B, B'. congruence. } subst w'.
  assert (T : forall x, In x (map (trial_scale g w n) (zrange (Zceil n))) -> (g * (1 - w) <= x < g * (1 + w))%R).
  { intros x Hx. apply in_map_iff in Hx as (i & <- & I). apply Arr.in_zrange in I. apply trial_scale_range; auto. }
  split; [exact T|]. intros x Hx. destruct (all_finite rs) as [ys|] eqn:F.
  - apply all_finite_ok in F. pose proof (proj2 (Bs _ F)) as B'. apply B' in Hx. destruct Hx as [(k & K & E & L) Hx']. subst x. destruct (T _ (proj1 Lo)) as [Q _]. split.
    + assert (0 <= IZR k)%R by (apply IZR_le; auto). nra.
    + exists hi. split; [apply Hi|auto].
  - apply all_finite_none in F. rewrite (Bn F) in Hx. destruct Hx.
Qed.

(** ** Refused files *)
Lemma bad_guess spline img guess g consts : (g <= 0)%R -> platesolv spline img guess g consts = Err ps_error.
Proof. intros H. unfold platesolv. assert (Q : pos_real g = false) by (unfold pos_real; destruct (Rlt_dec 0 g); [lra|auto]). rewrite Q. reflexivity. Qed.
Lemma bad_shape spline img guess g consts : same_shape img guess = false -> platesolv spline img guess g consts = Err ps_error.
Proof.
  intros H. destruct (Rlt_le_dec 0 g) as [G|G]; [|apply bad_guess; auto]. unfold platesolv. rewrite guard_true by (apply pos_real_iff; auto). rewrite H. reflexivity.
Qed.
Lemma missing_key spline img guess g d k : In k ["ps_wid"; "n_trials"; "percentile_val"; "interp_step_size"] -> (forall v, ~ has (YDict d) k v) ->
  platesolv spline img guess g (YDict d) = Err ps_error.
Proof.
  intros I N. destruct (Rlt_le_dec 0 g) as [G|G]; [|apply bad_guess; auto]. unfold platesolv. rewrite guard_true by (apply pos_real_iff; auto).
  destruct (same_shape img guess); [|reflexivity]. cbn [guard bind has_key].
  assert (M : assoc k d = None). { destruct (assoc k d) as [v|] eqn:E; [|auto]. exfalso. apply (N v). apply item_has. cbn [item]. rewrite E. reflexivity. }
  destruct I as [<-|[<-|[<-|[<-|[]]]]]; rewrite M; repeat (match goal with |- context [match assoc ?a ?b with _ => _ end] => destruct (assoc a b) end; cbn [bind guard]; try reflexivity).
Qed.

(** ** An image that is a multiple of a trial image has residual zero there *)
Lemma spread_zero f n m r : 0 < n -> 0 < m -> (forall i j, 0 <= i < n -> 0 <= j < m -> f i j = 0%R) -> spread f n m r -> r = 0%R.
Proof.
  intros Hn Hm Z (mean & A & B & C). assert (0 < IZR n * IZR m)%R by (apply Rmult_lt_0_compat; apply IZR_lt; auto).
  rewrite rsum2_all_zero in A by auto. assert (mean = 0%R). { apply (Rmult_eq_reg_l (IZR n * IZR m)); lra. } subst mean.
  rewrite rsum2_all_zero in C. 2:{ intros. rewrite Z by auto. ring. }
  assert (r ^ 2 = 0)%R. { apply (Rmult_eq_reg_l (IZR n * IZR m)); lra. } nra.
Qed.
Lemma matching_residual img guess g p pix T k r : 0 < nr img -> 0 < nc img -> (0 <= k)%R -> rescaled guess g pix T ->
  nr img = nr T -> nc img = nc T -> (forall i j, in_arr img i j -> at2 img i j = (k * at2 T i j)%R) ->
  residual img guess g p pix (Some r) -> r = 0%R.
Proof.
  intros Hn Hm Hk RT E1 E2 V (T' & mv & tv & gm & R1 & M1 & T1 & G1 & Z1 & Z2 & Sp). pose proof (rescaled_unique _ _ _ _ _ R1 RT) as (Q1 & Q2 & QV).
  assert (M : is_percentile img p (k * tv)%R).
  { apply (is_percentile_scale k T' img); auto; try congruence. intros i j [I J]. rewrite QV. apply V. split; lia. }
  pose proof (is_percentile_unique _ _ _ _ M1 M). subst mv. apply (spread_zero _ _ _ _ Hn Hm) in Sp; [auto|].
  intros i j Hi Hj. cbv beta. rewrite V by (split; auto). rewrite QV. field. auto.
Qed.
Lemma residual_nonneg img guess g p pix r : residual img guess g p pix (Some r) -> (0 <= r)%R.
Proof. intros (T & mv & tv & gm & _ & _ & _ & _ & _ & _ & m & _ & H & _). auto. Qed.

Lemma matching_trial spline img guess g consts best pix rs x T k p : platesolv spline img guess g consts = Ok (best, pix, rs) ->
  has_real consts "percentile_val" p -> In x pix -> (0 <= k)%R -> rescaled guess g x T -> (forall i j, in_arr img i j -> at2 img i j = (k * at2 T i j)%R) ->
  forall i, nth_error pix i = Some x -> nth_error rs i = Some (Some 0%R) \/ nth_error rs i = Some None.
Proof.
  intros H Hp Hx Hk RT V i Hi. apply platesolv_ok in H as (Hg & S & H1 & H2 & w & n & p' & st & lo & hi & (_ & _ & P' & _) & W0 & P & St & _ & N4 & Pos & RS & _).
  assert (p' = p). { destruct Hp as (u & A & B), P' as (u' & A' & B'). apply item_has in A, A'. apply number_ok in B, B'. congruence. } subst p'.
  apply same_shape_iff in S as [S1 S2].
  assert (Q : forall l r i, Forall2 (residual img guess g p) l r -> nth_error l i = Some x -> exists v, nth_error r i = Some v /\ residual img guess g p x v).
  { clear. intros l r i F. revert i. induction F as [|a b c d E F IH]; intros [|i] Hi; cbn in *; try discriminate; [injection Hi as ->; eauto|auto]. }
  destruct (Q _ _ _ RS Hi) as (v & -> & RV). destruct v as [v|]; [left|right; auto]. assert (v = 0%R) as ->; [|reflexivity].
  pose proof RT as (F & F1 & F2 & FV & A & B & C).
  apply (matching_residual img guess g p x T k v); auto; lia.
Qed.

(** ** Brightness *)
Section Bright.
Variables (spline : spline_fun) (img guess img' guess' : arr R) (g : R) (a b : R).
Hypotheses (Ha : (0 < a)%R) (Hb : (0 < b)%R) (HS : homogeneous spline).
Hypotheses (I1 : nr img' = nr img) (I2 : nc img' = nc img) (IV : forall i j, in_arr img i j -> at2 img' i j = (a * at2 img i j)%R).
Hypotheses (G1 : nr guess' = nr guess) (G2 : nc guess' = nc guess) (GV : forall i j, in_arr guess i j -> at2 guess' i j = (b * at2 guess i j)%R).
Let c := (a / b)%R.
Lemma c_pos : (0 < c)%R. Proof. apply Rdiv_lt_0_compat; auto. Qed.


Hypotheses (Hn : 0 < nr guess) (Hm : 0 < nc guess) (HSh : same_shape img guess = true) (Hg : (0 < g)%R).
Lemma fourier_scale s (e e' : arr C) k din dout h w u v : nr e' = nr e -> nc e' = nc e ->
  (forall i j, in_arr e i j -> at2 e' i j = (RtoC k * at2 e i j)%C) -> fourier_sum s e' din dout h w u v = (RtoC k * fourier_sum s e din dout h w u v)%C.
Proof.
  intros E1 E2 V. unfold fourier_sum. rewrite E1, E2.
  rewrite (csum2_ext _ (fun i j => RtoC k * (at2 e i j * cis (s * 2 * PI * (IZR (u - h / 2) / dout * (IZR (i - nr e / 2) / din) + IZR (v - w / 2) / dout * (IZR (j - nc e / 2) / din)))))%C).
  2:{ intros i j Hi Hj. rewrite V by (split; auto). ring. }
  rewrite csum2_scal. ring.
Qed.
Lemma amax_scale : amax guess' = (b * amax guess)%R.
Proof.
  apply (is_max_unique guess'); [apply amax_ok; lia|]. destruct (amax_ok guess) as [(i & j & [I J] & E) M]; auto. split.
  - exists i, j. split; [split; lia|]. rewrite GV by (split; auto). rewrite E. reflexivity.
  - intros i' j' [I' J']. rewrite GV by (split; lia). apply Rmult_le_compat_l; [lra|]. apply M. split; lia.
Qed.
Lemma mean2_scale k (x y : arr R) : nr y = nr x -> nc y = nc x -> (forall i j, in_arr x i j -> at2 y i j = (k * at2 x i j)%R) -> mean2 y = (k * mean2 x)%R.
Proof.
  intros E1 E2 V. unfold mean2. rewrite E1, E2. rewrite (rsum2_ext _ (fun i j => k * at2 x i j)%R) by (intros; apply V; split; auto). rewrite rsum2_scal. unfold Rdiv. ring.
Qed.
Lemma std_scale k (x y : arr R) : (0 <= k)%R -> nr y = nr x -> nc y = nc x -> (forall i j, in_arr x i j -> at2 y i j = (k * at2 x i j)%R) -> std y = (k * std x)%R.
Proof.
  intros Hk E1 E2 V. unfold std. rewrite (mean2_scale k x y) by auto.
  rewrite (mean2_scale (k ^ 2) (amap (fun v => (v - mean2 x) ^ 2)%R x)).
  - rewrite sqrt_mult_alt by apply pow2_ge_0. rewrite sqrt_pow2 by auto. reflexivity.
  - auto.
  - auto.
  - intros i j I. cbn [amap at2]. rewrite V by auto. ring.
Qed.
Lemma trial_scaled F F' pv pix : nr F = nr guess -> nc F = nc guess -> nr F' = nr F -> nc F' = nc F -> (forall i j, in_arr F i j -> at2 F' i j = (RtoC b * at2 F i j)%C) ->
  trial_residual img' guess' F' (IZR (Z.max (nr guess) (nc guess))) pv pix =
  (do r <- trial_residual img guess F (IZR (Z.max (nr guess) (nc guess))) pv pix; Ok (option_map (Rmult c) r)).
Proof.
  intros A1 A2 B1 B2 V. pose proof c_pos as Hc. unfold trial_residual. rewrite G1, G2. pose proof (P_pos guess Hm) as PP. set (P := IZR (Z.max (nr guess) (nc guess))) in *. 
  apply same_shape_iff in HSh as [S1 S2].
  destruct (Rlt_dec 0 pix) as [Hp|Hp].
  2:{ assert (Q : pos_real pix = false). { destruct (pos_real pix) eqn:Q; auto. apply pos_real_iff in Q. contradiction. }
      unfold do_mft. rewrite Q. reflexivity. }
  destruct (do_mft_ok F (nr guess) (nc guess) pix P) as (t & -> & T1 & T2 & TV); try lia; auto.
  destruct (do_mft_ok F' (nr guess) (nc guess) pix P) as (t' & -> & T1' & T2' & TV'); try lia; auto. cbn [bind].
  assert (TS : forall i j, at2 (amap Re t') i j = (b * at2 (amap Re t) i j)%R).
  { intros i j. cbn [amap at2]. rewrite TV, TV'. rewrite (fourier_scale _ F F' b) by auto. unfold Re, Cmult, RtoC. cbn [fst snd]. ring. }
  destruct (number pv) as [p|e]; cbn [bind]; [|reflexivity].
  rewrite (elements_scale a img img') by auto. rewrite percentile_scale by lra.
  rewrite (elements_scale b (amap Re t) (amap Re t')) by (cbn [amap nr nc]; auto; lia). rewrite percentile_scale by lra.
  destruct (percentile (elements img) p) as [mv|e]; cbn [bind]; [|reflexivity].
  destruct (percentile (elements (amap Re t)) p) as [tv|e]; cbn [bind]; [|reflexivity]. rewrite amax_scale.
  destruct (Req_EM_T tv 0) as [Z|Z].
  - destruct (Req_EM_T (b * tv) 0) as [_|Q]; [reflexivity|]. exfalso. apply Q. rewrite Z. ring.
  - destruct (Req_EM_T (b * tv) 0) as [Q|_]. { apply Rmult_integral in Q as [Q|Q]; [lra|contradiction]. }
    destruct (Req_EM_T (amax guess) 0) as [Z'|Z'].
    + destruct (Req_EM_T (b * amax guess) 0) as [_|Q]; [reflexivity|]. exfalso. apply Q. rewrite Z'. ring.
    + destruct (Req_EM_T (b * amax guess) 0) as [Q|_]. { apply Rmult_integral in Q as [Q|Q]; [lra|contradiction]. }
      cbn [option_map]. do 2 f_equal. apply std_scale; [lra|cbn [amap2 amap nr]; lia|cbn [amap2 amap nc]; lia|].
      intros i j [Ii Ij]. cbn [amap2 amap nr nc] in Ii, Ij. cbn [amap2 at2]. rewrite TS, IV by (split; lia). cbn [amap at2]. unfold c. field. repeat split; lra.
Qed.
Lemma residuals_scaled f f' l : (forall x, In x l -> f' x = (do r <- f x; Ok (option_map (Rmult c) r))) ->
  residuals f' l = (do rs <- residuals f l; Ok (map (option_map (Rmult c)) rs)).
Proof.
  induction l as [|x l IH]; intros H; cbn [residuals]; [reflexivity|]. rewrite H by (left; auto). rewrite IH by (intros; apply H; right; auto).
  destruct (f x); cbn [bind]; [|reflexivity]. destruct (residuals f l); reflexivity.
Qed.
Lemma finite_scaled rs : all_finite (map (option_map (Rmult c)) rs) = option_map (map (Rmult c)) (all_finite rs).
Proof. induction rs as [|[v|] rs IH]; cbn [map option_map all_finite]; [reflexivity| |reflexivity]. rewrite IH. destruct (all_finite rs); reflexivity. Qed.
Lemma min_scaled (f : R -> R) l d : rmin_list (map (fun x => c * f x)%R l) (c * d)%R = (c * rmin_list (map f l) d)%R.
Proof.
  pose proof c_pos. unfold rmin_list. induction l as [|x l IH]; cbn [map fold_right]; [reflexivity|]. rewrite IH. unfold Rmin.
  destruct (Rle_dec _ _) as [Q|Q], (Rle_dec (f x) _) as [Q'|Q']; auto; exfalso.
  - apply Q'. apply Rmult_le_reg_l with c; auto.
  - apply Q. apply Rmult_le_compat_l; lra.
Qed.
Lemma same_shape_scaled : same_shape img' guess' = same_shape img guess.
Proof. unfold same_shape. rewrite I1, I2, G1, G2. reflexivity. Qed.
Lemma brightness consts : platesolv spline img' guess' g consts =
  (do o <- platesolv spline img guess g consts; Ok (fst (fst o), snd (fst o), map (option_map (Rmult c)) (snd o))).
Proof.
  pose proof c_pos as Hc. unfold platesolv. rewrite same_shape_scaled. rewrite !guard_true by (auto; apply pos_real_iff; auto).
  destruct (has_key consts "ps_wid") as [b1|]; cbn [bind]; [|reflexivity]. destruct b1; cbn [guard bind]; [|reflexivity].
  destruct (has_key consts "n_trials") as [b1|]; cbn [bind]; [|reflexivity]. destruct b1; cbn [guard bind]; [|reflexivity].
  destruct (has_key consts "percentile_val") as [b1|]; cbn [bind]; [|reflexivity]. destruct b1; cbn [guard bind]; [|reflexivity].
  destruct (has_key consts "interp_step_size") as [b1|]; cbn [bind]; [|reflexivity]. destruct b1; cbn [guard bind]; [|reflexivity].
  destruct (item consts "ps_wid") as [w_|]; cbn [bind]; [|reflexivity]. destruct (number w_) as [w|]; cbn [bind]; [|reflexivity].
  destruct (item consts "n_trials") as [n_|]; cbn [bind]; [|reflexivity]. destruct (number n_) as [n|]; cbn [bind]; [|reflexivity].
  destruct (negb (if Req_EM_T n 0 then true else false)); cbn [guard bind]; [|reflexivity].
  destruct (arange _ _ _ _) as [pix|]; cbn [bind]; [|reflexivity]. rewrite G1, G2. set (P := IZR (Z.max (nr guess) (nc guess))).
  pose proof (P_pos guess Hm) as PP. fold P in PP.
  destruct (do_imft_ok (amap RtoC guess) (nr guess) (nc guess) g P) as (F & -> & F1 & F2 & FV); auto.
  destruct (do_imft_ok (amap RtoC guess') (nr guess) (nc guess) g P) as (F' & -> & F1' & F2' & FV'); cbn [amap nr nc]; auto; try lia. cbn [bind].
  destruct (item consts "percentile_val") as [pv|]; cbn [bind]; [|reflexivity].
  rewrite (residuals_scaled (trial_residual img guess F P pv)).
  2:{ intros x _. apply trial_scaled; auto; try lia. intros i j _. rewrite FV, FV'. apply fourier_scale; auto. intros i' j' I. cbn [amap at2]. rewrite GV by (destruct I; split; auto). apply RtoC_mult. }
  destruct (residuals _ pix) as [rs|]; cbn [bind]; [|reflexivity]. destruct pix as [|x0 pl]; [reflexivity|]. set (pix := x0 :: pl).
  destruct (item consts "interp_step_size") as [s_|]; cbn [bind]; [|reflexivity]. destruct (number s_) as [st|]; cbn [bind]; [|reflexivity].
  destruct (arange _ _ _ _) as [grid|]; cbn [bind]; [|reflexivity]. destruct (4 <=? len pix); cbn [guard bind]; [|reflexivity].
  destruct grid as [|g0 gl]; [reflexivity|]. set (grid := g0 :: gl). rewrite finite_scaled. destruct (all_finite rs) as [ys|]; cbn [option_map bind]; [|reflexivity].
  do 3 f_equal.
  assert (E : spline pix (map (Rmult c) ys) = (fun x => c * spline pix ys x)%R) by (extensionality x; apply HS). rewrite E. rewrite min_scaled.
  apply filter_ext. intros x. destruct (Req_EM_T (c * _) _) as [Q|Q], (Req_EM_T (spline pix ys x) _) as [Q'|Q']; auto; exfalso.
  - apply Q'. apply Rmult_eq_reg_l with c; auto. lra.
  - apply Q. f_equal. auto.
Qed.
End Bright.
