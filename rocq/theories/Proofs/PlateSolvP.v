(** Proofs about the plate-scale search. *)
From Coq Require Import ZArith Bool List String Reals Lra Lia Permutation Sorted.
From Flocq Require Import Core.Raux.
From Coquelicot Require Import Complex.
From Verif.Base Require Import Py Arr Vec Sums CSum.
From Verif.Model Require Import Fits Fresnel Mft Yaml DarkHole GainMap PsfFit PlateSolv.
From Verif.Spec Require Import FitsSpec MftSpec DarkHoleSpec PlateSolvSpec.
From Verif.Proofs Require Import FitsP FresnelP MftP DarkHoleP GainMapP PsfFitP PupilUtilC.
Import ListNotations.
Open Scope string_scope.
Open Scope Z_scope.

Lemma number_ok v x : number v = Ok x <-> is_real v x.
Proof.
  split.
  - destruct v; cbn; intros [= <-]; constructor.
  - intros []; reflexivity.
Qed.
Lemma Rleb_iff x y : Rleb x y = true <-> (x <= y)%R.
Proof. unfold Rleb. destruct (Rle_dec x y); split; auto; discriminate. Qed.
Lemma residuals_ok f l rs : residuals f l = Ok rs <-> Forall2 (fun x r => f x = Ok r) l rs.
Proof.
  revert rs. induction l as [|x l IH]; intros rs; cbn [residuals].
  - split; [intros [= <-]; constructor|intros H; inversion H; reflexivity].
  - split.
    + intros H. inv_bind H. inv_bind H. injection H as <-. constructor; [auto|]. apply IH; auto.
    + intros H. inversion H as [|a b c d E F]; subst. rewrite E. cbn [bind]. apply IH in F. rewrite F. reflexivity.
Qed.
Lemma residuals_def f l : (forall x, In x l -> exists r, f x = Ok r) -> exists rs, residuals f l = Ok rs.
Proof.
  induction l as [|x l IH]; intros H; cbn [residuals]; [eauto|]. destruct (H x (or_introl eq_refl)) as [r ->].
  destruct IH as [rs ->]; [intros; apply H; right; auto|]. cbn [bind]. eauto.
Qed.

(** ** arange *)
Lemma arange_ok e a b s l : arange e a b s = Ok l <-> s <> 0%R /\ l = map (fun i => a + IZR i * s)%R (zrange (Zceil ((b - a) / s))).
Proof. unfold arange. destruct (Req_EM_T s 0); split; [discriminate|intros []; congruence|intros [= <-]; auto|intros [_ ->]; auto]. Qed.
Lemma arange_grid a b s x : (0 < s)%R -> In x (map (fun i => a + IZR i * s)%R (zrange (Zceil ((b - a) / s)))) <-> on_grid a b s x.
Proof.
  intros Hs. rewrite in_map_iff. unfold on_grid.
  assert (K : forall k, k < Zceil ((b - a) / s) <-> (a + IZR k * s < b)%R).
  { intros k. split.
    - intros L. assert (IZR k < (b - a) / s)%R.
      { destruct (Rlt_le_dec (IZR k) ((b - a) / s)) as [|Q]; [auto|]. exfalso. apply (Zceil_glb k) in Q. lia. }
      apply (Rmult_lt_compat_r s) in H; [|auto]. unfold Rdiv in H. rewrite Rmult_assoc, Rinv_l, Rmult_1_r in H by lra. lra.
    - intros L. apply lt_IZR. eapply Rlt_le_trans; [|apply Zceil_ub]. apply (Rmult_lt_reg_r s); [auto|]. unfold Rdiv. rewrite Rmult_assoc, Rinv_l, Rmult_1_r by lra. lra. }
  split.
  - intros (k & <- & I). apply in_zrange in I. exists k. split; [lia|]. split; [reflexivity|]. apply K. lia.
  - intros (k & H0 & -> & L). exists k. split; [reflexivity|]. apply in_zrange. split; [auto|]. apply K. auto.
Qed.
Lemma zrange_nil n : n <= 0 -> zrange n = [].
Proof.
  intros H. destruct (zrange n) as [|x l] eqn:E; [reflexivity|]. assert (I : In x (zrange n)) by (rewrite E; left; auto). apply in_zrange in I. lia.
Qed.
Lemma arange_backward a b s : (s < 0)%R -> (a <= b)%R -> map (fun i => a + IZR i * s)%R (zrange (Zceil ((b - a) / s))) = [].
Proof.
  intros Hs H. rewrite zrange_nil; [reflexivity|]. apply Zceil_glb. assert (/ s < 0)%R by (apply Rinv_lt_0_compat; auto). unfold Rdiv. nra.
Qed.

(** ** Trials *)
Lemma trials_list g w n : (0 < g)%R -> w <> 0%R -> n <> 0%R ->
  map (fun i => g - g * w + IZR i * (g * w / (n / 2)))%R (zrange (Zceil ((g + g * w - (g - g * w)) / (g * w / (n / 2))))) =
  map (trial_scale g w n) (zrange (Zceil n)).
Proof.
  intros Hg Hw Hn. replace ((g + g * w - (g - g * w)) / (g * w / (n / 2)))%R with n by (field; repeat split; lra || auto).
  apply map_ext. intros i. unfold trial_scale. field. auto.
Qed.
Lemma step_nonzero g w n : (0 < g)%R -> n <> 0%R -> (g * w / (n / 2) <> 0)%R <-> w <> 0%R.
Proof.
  intros Hg Hn. split.
  - intros H ->. apply H. unfold Rdiv. ring.
  - intros Hw E. apply Hw. assert (g * w = 0)%R. { replace (g * w)%R with (g * w / (n / 2) * (n / 2))%R by (field; auto). rewrite E. ring. }
    apply Rmult_integral in H as [?|?]; [lra|auto].
Qed.

(** ** Percentile, spread *)
Lemma nth_last_in (l : list R) k : (k < List.length l)%nat -> In (nth k l 0%R) l. Proof. apply nth_In. Qed.
Lemma percentile_ok (a : arr R) p : 0 < nr a -> 0 < nc a ->
  match percentile (elements a) p with
  | Ok v => (0 <= p <= 100)%R /\ is_percentile a p v
  | Err e => e = ValueError /\ ~ (0 <= p <= 100)%R
  end.
Proof.
  intros Hn Hm. unfold percentile, guard. destruct (Rleb 0 p && Rleb p 100) eqn:G; cbn [bind].
  - apply andb_true_iff in G as [G1 G2]. rewrite Rleb_iff in G1, G2. split; [lra|].
    set (s := npsort (elements a)). set (n := len (elements a)).
    assert (Hl : n = Z.of_nat (List.length s)) by (unfold n, s, len; rewrite length_npsort; auto).
    assert (Hp : 1 <= n).
    { assert (E : elements a <> []) by (apply elements_nonempty; exists 0, 0; split; lia). unfold n, len. destruct (elements a); [congruence|cbn [List.length]; lia]. }
    assert (1 <= IZR n)%R by (apply IZR_le; auto).
    set (pos := (p / 100 * (IZR n - 1))%R). assert (P0 : (0 <= pos <= IZR n - 1)%R) by (unfold pos; nra).
    exists s, (Zfloor pos). split; [apply npsort_perm|]. split; [apply npsort_sorted|]. rewrite <- Hl. fold pos. cbn zeta.
    pose proof (Zfloor_lb pos). pose proof (Zfloor_ub pos). assert (0 <= Zfloor pos) by (apply Zfloor_lub; lra).
    split; [auto|]. split; [lra|]. unfold nthR. destruct (Z_lt_le_dec (Zfloor pos + 1) n) as [L|L].
    + rewrite Z.min_l by lia. ring.
    + assert (E : pos = IZR (Zfloor pos)). { apply Rle_antisym; [|auto]. apply Rle_trans with (IZR n - 1)%R; [lra|]. rewrite <- minus_IZR. apply IZR_le. lia. }
      rewrite <- E. ring.
  - split; [reflexivity|]. intros [A B]. rewrite (proj2 (Rleb_iff _ _) A), (proj2 (Rleb_iff _ _) B) in G. discriminate.
Qed.
Lemma std_ok a : 0 < nr a -> 0 < nc a -> spread (at2 a) (nr a) (nc a) (std a).
Proof.
  intros Hn Hm. assert (0 < IZR (nr a))%R by (apply IZR_lt; auto). assert (0 < IZR (nc a))%R by (apply IZR_lt; auto).
  exists (mean2 a). split; [unfold mean2; field; lra|]. split; [apply sqrt_pos|]. unfold std.
  set (q := mean2 (amap _ a)). assert (Q : (0 <= q)%R).
  { unfold q, mean2. cbn [amap nr nc at2]. apply Rmult_le_pos; [apply rsum2_nonneg; intros; apply pow2_ge_0|].
    left. apply Rinv_0_lt_compat. apply Rmult_lt_0_compat; auto. }
  replace (sqrt q ^ 2)%R with q by (rewrite <- Rsqr_pow2, Rsqr_sqrt; auto). unfold q, mean2 at 1. cbn [amap nr nc at2]. field. lra.
Qed.
Lemma spread_ext f g n m r : (forall i j, 0 <= i < n -> 0 <= j < m -> f i j = g i j) -> spread f n m r -> spread g n m r.
Proof.
  intros E (mean & A & B & C). exists mean. rewrite <- (rsum2_ext f g) by auto. split; [auto|]. split; [auto|].
  rewrite C. apply rsum2_ext. intros. rewrite E by auto. reflexivity.
Qed.

(** ** One trial *)
Section Trial.
Variables (img guess : arr R) (g : R) (F : arr C).
Let P := IZR (Z.max (nr guess) (nc guess)).
Hypotheses (Hn : 0 < nr guess) (Hm : 0 < nc guess) (S : same_shape img guess = true) (Hg : (0 < g)%R).
Hypothesis HF : do_imft (amap RtoC guess) [nr guess; nc guess] g P = Ok F.
Lemma P_pos : (0 < P)%R. Proof. apply IZR_lt. lia. Qed.
Lemma field_ok : nr F = nr guess /\ nc F = nc guess /\ forall u v, at2 F u v = fourier_sum 1 (amap RtoC guess) g P (nr guess) (nc guess) u v.
Proof.
  destruct (do_imft_ok (amap RtoC guess) (nr guess) (nc guess) g P) as (o & E & A & B & D); auto using P_pos.
  rewrite HF in E. injection E as <-. auto.
Qed.
Lemma trial_ok pv pix : match trial_residual img guess F P pv pix with
  | Ok r => (0 < pix)%R /\ exists p, is_real pv p /\ (0 <= p <= 100)%R /\ residual img guess g p pix r
  | Err e => (e = TypeError /\ (~ (0 < pix)%R \/ ~ exists p, is_real pv p)) \/ (e = ValueError /\ exists p, is_real pv p /\ ~ (0 <= p <= 100)%R)
  end.
Proof.
  destruct field_ok as (F1 & F2 & FV). pose proof P_pos as HP. apply same_shape_iff in S as [S1 S2]. unfold trial_residual.
  destruct (Rlt_dec 0 pix) as [Hp|Hp].
  - destruct (do_mft_ok F (nr guess) (nc guess) pix P) as (t & Et & T1 & T2 & TV); try lia; auto. rewrite Et. cbn [bind].
    destruct (number pv) as [p|e] eqn:N.
    2:{ cbn [bind]. left. split; [destruct pv; cbn in N; congruence|]. right. intros [p Q]. apply number_ok in Q. congruence. }
    apply number_ok in N. cbn [bind]. pose proof (percentile_ok img p) as PI. pose proof (percentile_ok (amap Re t) p) as PT. 
    destruct (percentile (elements img) p) as [mv|e]; cbn [bind].
    2:{ destruct PI as [-> Q]; try lia. right. eauto. }
    destruct PI as [P1 P2]; try lia. destruct (percentile (elements (amap Re t)) p) as [tv|e]; cbn [bind].
    2:{ destruct PT as [_ Q]; cbn; try lia. contradiction. }
    destruct PT as [_ P3]; cbn; try lia. split; [auto|]. exists p. split; [auto|]. split; [auto|].
    exists (amap Re t), mv, tv, (amax guess). split.
    { exists F. split; [auto|]. split; [auto|]. split; [auto|]. cbn [amap nr nc]. split; [auto|]. split; [auto|]. intros u v. cbn [amap at2]. rewrite TV. reflexivity. }
    split; [auto|]. split; [auto|]. split; [apply amax_ok; auto|].
    destruct (Req_EM_T tv 0); [left; auto|]. destruct (Req_EM_T (amax guess) 0); [right; auto|]. split; [auto|]. split; [auto|].
    pose proof (std_ok (amap2 (fun x y => (x * (mv / tv) - y) / amax guess)%R (amap Re t) img)) as Q. cbn [amap2 amap nr nc] in Q.
    replace (nr img) with (nr t) by lia. replace (nc img) with (nc t) by lia. apply Q; lia.
  - assert (Q : pos_real pix = false). { destruct (pos_real pix) eqn:Q; auto. apply pos_real_iff in Q. contradiction. }
    unfold do_mft. rewrite Q. cbn [guard bind]. left. split; [reflexivity|]. left. auto.
Qed.
End Trial.

Lemma key_has v k x : item v k = Ok x -> has_key v k = Ok true.
Proof. unfold item, has_key. destruct v; try discriminate. destruct (assoc k d); [reflexivity|discriminate]. Qed.
Lemma rmin_least l d : In d l -> least_of l (rmin_list l d).
Proof.
  unfold rmin_list, least_of.
  assert (G : forall l d, In (fold_right Rmin d l) (d :: l) /\ forall v, In v (d :: l) -> (fold_right Rmin d l <= v)%R).
  { clear. induction l as [|a l IH]; intros d; cbn [fold_right]; [split; [left; auto|]; intros v [->|[]]; lra|]. destruct (IH d) as [I M]. split.
    - unfold Rmin at 1. destruct (Rle_dec a _); [right; left; auto|]. destruct I as [I|I]; [left; auto|right; right; auto].
    - intros v [->|[->|H]]; [eapply Rle_trans; [apply Rmin_r|]; apply M; left; auto|apply Rmin_l|eapply Rle_trans; [apply Rmin_r|]; apply M; right; auto]. }
  intros H. destruct (G l d) as [I M]. split; [destruct I as [<-|I]; auto|]. intros x Hx. apply M. right; auto.
Qed.
Lemma rmax_most l d : In d l -> most_of l (PsfFit.rmax_list l d).
Proof.
  unfold PsfFit.rmax_list, most_of.
  assert (G : forall l d, In (fold_right Rmax d l) (d :: l) /\ forall v, In v (d :: l) -> (v <= fold_right Rmax d l)%R).
  { clear. induction l as [|a l IH]; intros d; cbn [fold_right]; [split; [left; auto|]; intros v [->|[]]; lra|]. destruct (IH d) as [I M]. split.
    - unfold Rmax at 1. destruct (Rle_dec a _); [|right; left; auto]. destruct I as [I|I]; [left; auto|right; right; auto].
    - intros v [->|[->|H]]; [eapply Rle_trans; [|apply Rmax_r]; apply M; left; auto|apply Rmax_l|eapply Rle_trans; [|apply Rmax_r]; apply M; right; auto]. }
  intros H. destruct (G l d) as [I M]. split; [destruct I as [<-|I]; auto|]. intros x Hx. apply M. right; auto.
Qed.
Lemma least_unique l a b : least_of l a -> least_of l b -> a = b.
Proof. intros [A1 A2] [B1 B2]. apply Rle_antisym; auto. Qed.
Lemma all_finite_ok rs ys : all_finite rs = Some ys <-> rs = map Some ys.
Proof.
  revert ys. induction rs as [|[v|] rs IH]; intros ys; cbn [all_finite].
  - split; [intros [= <-]; reflexivity|]. destruct ys; [auto|discriminate].
  - destruct (all_finite rs) as [l|].
    + split; [intros [= <-]; cbn; f_equal; apply IH; auto|]. destruct ys as [|y ys]; [discriminate|]. intros [= -> E]. apply IH in E. congruence.
    + split; [discriminate|]. destruct ys as [|y ys]; [discriminate|]. intros [= -> E]. apply IH in E. discriminate.
  - split; [discriminate|]. destruct ys; discriminate.
Qed.
Lemma all_finite_none rs : all_finite rs = None <-> In None rs.
Proof.
  induction rs as [|[v|] rs IH]; cbn [all_finite].
  - split; [discriminate|intros []].
  - destruct (all_finite rs); split; try discriminate; auto.
    + intros [H|H]; [discriminate|]. apply IH in H. discriminate.
    + intros _. right. apply IH. auto.
  - split; [left; auto|auto].
Qed.
Lemma bind_err {A B} (m : res A) (k : A -> res B) e : m = Err e -> bind m k = Err e. Proof. intros ->. reflexivity. Qed.

Lemma has_unique v k a b : has v k a -> has v k b -> a = b.
Proof. intros A B. apply item_has in A, B. congruence. Qed.
Lemma real_item v k x : has_real v k x <-> exists u, item v k = Ok u /\ number u = Ok x.
Proof.
  unfold has_real. split; intros (u & A & B); exists u; (split; [apply item_has; auto|apply number_ok; auto]).
Qed.

Lemma platesolv_ok spline img guess g consts best pix rs :
  platesolv spline img guess g consts = Ok (best, pix, rs) ->
  (0 < g)%R /\ same_shape img guess = true /\ 0 < nr guess /\ 0 < nc guess /\
  exists w n p st lo hi, ps_params consts w n p st /\ w <> 0%R /\ (0 <= p <= 100)%R /\ (0 < st)%R /\
    pix = map (trial_scale g w n) (zrange (Zceil n)) /\ 4 <= Zceil n /\
    (forall x, In x pix -> (0 < x)%R) /\
    Forall2 (residual img guess g p) pix rs /\
    least_of pix lo /\ most_of pix hi /\
    (In None rs -> best = []) /\
    (forall ys, rs = map Some ys -> best <> [] /\
       forall x, In x best <-> on_grid lo hi st x /\ forall y, on_grid lo hi st y -> (spline pix ys x <= spline pix ys y)%R).
Proof.
  intros H. unfold platesolv in H. apply guard_ok in H as [G1 H]. apply guard_ok in H as [G2 H].
  apply pos_real_iff in G1.
  inv_bind H. apply guard_ok in H as [K1 H]. inv_bind H. apply guard_ok in H as [K2 H]. inv_bind H. apply guard_ok in H as [K3 H]. inv_bind H. apply guard_ok in H as [K4 H].
  clear E E0 E1 E2 K1 K2 K3 K4 v v0 v1 v2.
  inv_bind H. inv_bind H. rename v0 into w. inv_bind H. inv_bind H. rename v1 into n. apply guard_ok in H as [Hn H].
  inv_bind H. rename v1 into pix0. inv_bind H. rename v1 into F. inv_bind H. rename v1 into pv. inv_bind H. rename v1 into rs0.
  apply negb_true_iff in Hn. assert (N0 : n <> 0%R) by (destruct (Req_EM_T n 0); [discriminate|auto]). clear Hn.
  assert (Sz : 0 < nr guess /\ 0 < nc guess).
  { unfold do_imft in E4. apply guard_ok in E4 as [_ E4]. apply guard_ok in E4 as [_ E4]. inv_bind E4. unfold shape2 in E7.
    apply guard_ok in E7 as [A E7]. apply guard_ok in E7 as [B _]. apply Z.leb_le in A, B. lia. }
  apply arange_ok in E3 as [Hs E3]. rewrite step_nonzero in Hs by auto. rewrite trials_list in E3 by auto.
  assert (W : has_real consts "ps_wid" w) by (apply real_item; eauto). assert (Wn : has_real consts "n_trials" n) by (apply real_item; eauto).
  split; [auto|]. split; [auto|]. split; [tauto|]. split; [tauto|].
  apply residuals_ok in E6.
  destruct pix0 as [|x0 pl] eqn:Ex; [discriminate|]. rewrite <- Ex in *. assert (I0 : In x0 pix0) by (rewrite Ex; left; auto).
  inv_bind H. rename v1 into sv. inv_bind H. rename v1 into st. inv_bind H. rename v1 into grid. apply guard_ok in H as [L4 H]. apply Z.leb_le in L4.
  apply arange_ok in E9 as [St E9].
  pose proof (rmin_least pix0 x0 I0) as Lo. pose proof (rmax_most pix0 x0 I0) as Hi. set (lo := rmin_list pix0 x0) in *. set (hi := PsfFit.rmax_list pix0 x0) in *.
  assert (St' : (0 < st)%R).
  { destruct (Rlt_le_dec 0 st) as [|Q]; [auto|]. exfalso. rewrite arange_backward in E9; [rewrite E9 in H; discriminate|lra|].
    apply Hi. apply Lo. }
  assert (Tr : forall x r, In x pix0 -> trial_residual img guess F (IZR (Z.max (nr guess) (nc guess))) pv x = Ok r ->
     (0 < x)%R /\ exists p, is_real pv p /\ (0 <= p <= 100)%R /\ residual img guess g p x r).
  { intros x r _ Q. pose proof (trial_ok img guess g F (proj1 Sz) (proj2 Sz) G2 G1 E4 pv x) as T. rewrite Q in T. exact T. }
  assert (Pp : exists p, is_real pv p /\ (0 <= p <= 100)%R /\ (forall x, In x pix0 -> (0 < x)%R) /\ Forall2 (residual img guess g p) pix0 rs0).
  { assert (exists p, is_real pv p /\ (0 <= p <= 100)%R) as (p & Q1 & Q2).
    { rewrite Ex in E6. inversion E6 as [|a b c d Ea Fa]; subst. apply Tr in Ea as (_ & p & A & B & _); [eauto|left; auto]. }
    exists p. split; [auto|]. split; [auto|]. clear - Tr E6 Q1.
    assert (U : forall q, is_real pv q -> q = p) by (intros q Q; apply number_ok in Q, Q1; congruence).
    induction E6 as [|a b c d Ea Fa IH]; [split; [intros x []|constructor]|].
    destruct IH as [I1 I2]. { intros x r Hx Q. apply Tr; auto. right; auto. }
    apply Tr in Ea as (A & q & B & C & D); [|left; auto]. apply U in B. subst q. split; [intros x [->|Hx]; auto|]. constructor; auto. }
  destruct Pp as (p & Q1 & Q2 & Q3 & Q4).
  assert (C : len pix0 = Z.max 0 (Zceil n)). { rewrite E3. unfold len. rewrite map_length. pose proof (len_map_zrange (fun _ => 0%R) (Zceil n)) as Q. unfold len in Q. rewrite map_length in Q. exact Q. }
  exists w, n, p, st, lo, hi.
  assert (PS : ps_params consts w n p st).
  { split; [auto|]. split; [auto|]. split; [apply real_item; exists pv; split; [auto|apply number_ok; auto]|]. apply real_item; eauto. }
  split; [exact PS|]. split; [auto|]. split; [auto|]. split; [auto|].
  assert (Gr : forall x, In x grid <-> on_grid lo hi st x) by (intros x; rewrite E9; apply arange_grid; auto).
  destruct grid as [|g0 gl] eqn:Eg; [discriminate|]. rewrite <- Eg in *. assert (Ig : In g0 grid) by (rewrite Eg; left; auto).
  destruct (all_finite rs0) as [ys|] eqn:Fi.
  - apply all_finite_ok in Fi. injection H as <- <- <-. split; [auto|]. split; [lia|]. split; [auto|]. split; [auto|]. split; [auto|]. split; [auto|]. split.
    + intros Nn. rewrite Fi in Nn. apply in_map_iff in Nn as (? & ? & _). discriminate.
    + intros ys' Ey. assert (ys' = ys). { apply (proj2 (all_finite_ok _ _)) in Ey, Fi. congruence. } subst ys'.
      set (f := spline pix0 ys). pose proof (rmin_least (map f grid) (f g0) (in_map f _ _ Ig)) as [M1 M2]. set (m := rmin_list (map f grid) (f g0)) in *.
      assert (B : forall x, In x (filter (fun x => if Req_EM_T (f x) m then true else false) grid) <-> on_grid lo hi st x /\ forall y, on_grid lo hi st y -> (f x <= f y)%R).
      { intros x. rewrite filter_In, Gr. split.
        - intros [A B]. split; [auto|]. destruct (Req_EM_T (f x) m) as [Q|]; [|discriminate]. intros y Hy. rewrite Q. apply M2. apply in_map. apply Gr; auto.
        - intros [A B]. split; [auto|]. destruct (Req_EM_T (f x) m) as [|Q]; [auto|]. exfalso. apply Q. apply Rle_antisym.
          + apply in_map_iff in M1 as (y & <- & Hy). apply B. apply Gr; auto.
          + apply M2. apply in_map. apply Gr. auto. }
      split; [|exact B]. apply in_map_iff in M1 as (y & Ey' & Hy). intros Nil. assert (In y []); [|auto]. rewrite <- Nil. apply B. split; [apply Gr; auto|].
      intros z Hz. rewrite Ey'. apply M2. apply in_map. apply Gr. auto.
  - apply all_finite_none in Fi. injection H as <- <- <-. split; [auto|]. split; [lia|]. split; [auto|]. split; [auto|]. split; [auto|]. split; [auto|]. split; [auto|].
    intros ys' ->. apply in_map_iff in Fi as (? & ? & _). discriminate.
Qed.

Lemma platesolv_accepts spline img guess g consts w n p st :
  (0 < g)%R -> same_shape img guess = true -> 0 < nr guess -> 0 < nc guess ->
  ps_params consts w n p st -> w <> 0%R -> (0 <= p <= 100)%R -> (0 < st)%R -> 4 <= Zceil n ->
  (forall i, 0 <= i < Zceil n -> (0 < trial_scale g w n i)%R) ->
  exists o, platesolv spline img guess g consts = Ok o.
Proof.
  intros Hg S Hr Hc (Pw & Pn & Pp & Ps) W Hp Hst N4 Pos.
  apply real_item in Pw as (u1 & A1 & B1), Pn as (u2 & A2 & B2), Pp as (u3 & A3 & B3), Ps as (u4 & A4 & B4).
  assert (N0 : n <> 0%R). { intros ->. rewrite Zceil_IZR in N4. lia. }
  unfold platesolv. rewrite guard_true by (apply pos_real_iff; auto). rewrite guard_true by auto.
  rewrite (key_has _ _ _ A1), (key_has _ _ _ A2), (key_has _ _ _ A3), (key_has _ _ _ A4). cbn [bind guard].
  rewrite A1. cbn [bind]. rewrite B1. cbn [bind]. rewrite A2. cbn [bind]. rewrite B2. cbn [bind].
  rewrite guard_true by (destruct (Req_EM_T n 0); [contradiction|reflexivity]).
  assert (AR : arange ZeroDivisionError (g - g * w) (g + g * w) (g * w / (n / 2)) = Ok (map (trial_scale g w n) (zrange (Zceil n)))).
  { unfold arange. destruct (Req_EM_T (g * w / (n / 2)) 0) as [Q|_]; [exfalso; revert Q; apply step_nonzero; auto|]. f_equal. apply trials_list; auto. }
  rewrite AR. cbn [bind]. set (pix := map (trial_scale g w n) (zrange (Zceil n))).
  pose proof (P_pos guess Hc) as PP. set (P := IZR (Z.max (nr guess) (nc guess))) in *.
  destruct (do_imft_ok (amap RtoC guess) (nr guess) (nc guess) g P) as (F & EF & _); auto. rewrite EF. cbn [bind]. rewrite A3. cbn [bind].
  assert (TR : forall x, In x pix -> exists r, trial_residual img guess F P u3 x = Ok r).
  { intros x Hx. unfold pix in Hx. apply in_map_iff in Hx as (i & <- & Hi). apply Arr.in_zrange in Hi. specialize (Pos i Hi).
    pose proof (trial_ok img guess g F Hr Hc S Hg EF u3 (trial_scale g w n i)) as T. fold P in T.
    destruct (trial_residual img guess F P u3 (trial_scale g w n i)) as [r|e]; [eauto|]. exfalso. apply number_ok in B3.
    destruct T as [[_ [T|T]]|[_ (q & Q & T)]]; [auto|apply T; eauto|]. apply T. apply number_ok in B3, Q. rewrite B3 in Q. injection Q as <-. auto. }
  apply residuals_def in TR as [rs ER]. rewrite ER. cbn [bind].
  assert (LP : len pix = Zceil n). { unfold pix. rewrite len_map_zrange. lia. }
  assert (I0 : In (trial_scale g w n 0) pix) by (unfold pix; apply in_map; apply Arr.in_zrange; lia).
  assert (I1 : In (trial_scale g w n 1) pix) by (unfold pix; apply in_map; apply Arr.in_zrange; lia).
  destruct pix as [|x0 pl] eqn:Ex; [destruct I0|]. rewrite <- Ex in *. rewrite A4. cbn [bind]. rewrite B4. cbn [bind].
  assert (Ix : In x0 pix) by (rewrite Ex; left; auto).
  pose proof (rmin_least pix x0 Ix) as Lo. pose proof (rmax_most pix x0 Ix) as Hi. set (lo := rmin_list pix x0) in *. set (hi := PsfFit.rmax_list pix x0) in *.
  unfold arange. destruct (Req_EM_T st 0); [lra|]. cbn [bind]. rewrite guard_true by (apply Z.leb_le; lia).
  assert (LH : (lo < hi)%R).
  { assert (trial_scale g w n 0 <> trial_scale g w n 1). { unfold trial_scale. intros Q. assert (Q' : (2 * g * w / n = 0)%R) by (cbn in Q; lra). 
      apply W. assert (g * w = 0)%R. { replace (g * w)%R with (2 * g * w / n * n / 2)%R by (field; auto). rewrite Q'. field. } apply Rmult_integral in H as [?|?]; [lra|auto]. }
    pose proof (proj2 Lo _ I0). pose proof (proj2 Lo _ I1). pose proof (proj2 Hi _ I0). pose proof (proj2 Hi _ I1). destruct (Rtotal_order (trial_scale g w n 0) (trial_scale g w n 1)) as [?|[?|?]]; [lra|contradiction|lra]. }
  assert (GI : In lo (map (fun i : Z => (lo + IZR i * st)%R) (zrange (Zceil ((hi - lo) / st))))).
  { apply arange_grid; [auto|]. exists 0. split; [lia|]. split; [ring|auto]. }
  destruct (map _ (zrange (Zceil ((hi - lo) / st)))) as [|g0 gl]; [destruct GI|]. destruct (all_finite rs); eauto.
Qed.
