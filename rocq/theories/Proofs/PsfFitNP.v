(** psffit on images with nan. *)
From Coq Require Import ZArith Bool List String Reals Lra Lia.
From Flocq Require Import Core.
From Coquelicot Require Import Complex.
From Verif.Base Require Import Py Arr Sums CSum Fft.
From Verif.Model Require Import Yaml PsfFit PsfFitN.
Import ListNotations.
Open Scope Z_scope.

Lemma has_nan_iff {A} (a : arr (option A)) : has_nan a = true <-> exists i j, in_arr a i j /\ at2 a i j = None.
Proof.
  unfold has_nan, elements. rewrite existsb_exists. split.
  - intros (x & I & N). apply in_map_iff in I as ([i j] & <- & I). apply in_indices in I. exists i, j. split; [exact I|].
    cbn [fst snd] in N. destruct (at2 a i j); [discriminate N|reflexivity].
  - intros (i & j & I & N). exists None. split; [|reflexivity]. apply in_map_iff. exists (i, j). split; [exact N|]. apply in_indices. exact I.
Qed.
Lemma has_nan_some {A} (a : arr A) : has_nan (amap Some a) = false.
Proof. destruct (has_nan (amap Some a)) eqn:E; auto. apply has_nan_iff in E as (i & j & _ & N). discriminate N. Qed.
Lemma known_some {A} d (a : arr A) : known d (amap Some a) = a. Proof. destruct a. reflexivity. Qed.
Lemma mixes_clean f (a : arr C) : mixes f (amap Some a) = (do r <- f a; Ok (amap Some r)).
Proof. unfold mixes. rewrite known_some, has_nan_some. reflexivity. Qed.
Lemma argmax_clean (a : arr R) : argmax2_n (amap Some a) = argmax2 a.
Proof.
  unfold argmax2_n. replace (filter _ _) with (@nil (Z * Z)); [rewrite known_some; reflexivity|].
  cbn [amap nr nc at2]. induction (indices (nr a) (nc a)) as [|p l IH]; [reflexivity|]. exact IH.
Qed.
Lemma peak_clean src tgt u pad : peak_shift_n (amap Some src) (amap Some tgt) u pad = peak_shift src tgt u pad.
Proof.
  unfold peak_shift_n, peak_shift.
  change (amap (omap RtoC) (amap Some src)) with (amap Some (amap RtoC src)). change (amap (omap RtoC) (amap Some tgt)) with (amap Some (amap RtoC tgt)).
  rewrite !mixes_clean. cbn [nr nc amap]. destruct (fft2 (amap RtoC src)) as [F|e]; [|reflexivity]. cbn [bind].
  destruct (fft2 (amap RtoC tgt)) as [G|e]; [|reflexivity]. cbn [bind].
  change (amap2 (omap2 (fun a b => a * Cconj b)%C) (amap Some F) (amap Some G)) with (amap Some (amap2 (fun a b => a * Cconj b)%C F G)).
  set (ip := amap2 _ F G). rewrite mixes_clean. destruct (ifft2 ip) as [cc|e]; [|reflexivity]. cbn [bind].
  change (amap (omap Cmod) (amap Some cc)) with (amap Some (amap Cmod cc)). rewrite argmax_clean.
  destruct (argmax2 (amap Cmod cc)) as [mx|e]; [|reflexivity]. cbn [bind]. destruct (Req_EM_T u 1); [reflexivity|].
  destruct (0 <? Zceil (u * pad)); [|reflexivity]. cbn [guard bind].
  change (amap (omap Cconj) (amap Some ip)) with (amap Some (amap Cconj ip)). rewrite mixes_clean.
  destruct (compute_upsampled_dft _ _ _ _ _) as [up|e]; [|reflexivity]. cbn [bind].
  match goal with |- context [amap (omap Cmod) (amap (omap ?f) (amap Some up))] =>
    change (amap (omap Cmod) (amap (omap f) (amap Some up))) with (amap Some (amap Cmod (amap f up))) end.
  rewrite argmax_clean. reflexivity.
Qed.
Lemma fold_some l l' : odot (map Some l) (map Some l') = Some (dot l l').
Proof.
  unfold odot, dot. revert l'. induction l as [|x l IH]; intros [|y l']; try reflexivity. cbn [map List.combine fold_right fst snd].
  rewrite IH. reflexivity.
Qed.
Lemma select_some m (a : arr R) : select m (amap Some a) = map Some (select m a).
Proof. unfold select. rewrite map_map. reflexivity. Qed.
Lemma amplitude_clean tgt guess thr : amplitude_ratio_n (amap Some tgt) (amap Some guess) thr = amplitude_ratio tgt guess thr.
Proof.
  unfold amplitude_ratio_n, amplitude_ratio. rewrite has_nan_some, known_some.
  match goal with |- context [amap ?g (amap Some tgt)] => change (amap g (amap Some tgt)) with (amap (fun v => if Rlt_dec (thr * amax tgt) v then true else false) tgt) end.
  rewrite !select_some, !fold_some. reflexivity.
Qed.
Lemma psffit_clean shift shift_n src tgt cfg : (forall a dy dx, shift_n (amap Some a) dy dx = amap Some (shift a dy dx)) ->
  psffit_n shift_n (amap Some src) (amap Some tgt) cfg = psffit shift src tgt cfg.
Proof.
  intros H. unfold psffit_n, psffit. destruct (read_config cfg) as [k|e]; [|reflexivity]. cbn [bind].
  change (same_shape (amap Some src) (amap Some tgt)) with (same_shape src tgt). destruct (same_shape src tgt); [|reflexivity]. cbn [guard bind].
  rewrite peak_clean. destruct (peak_shift _ _ _ _) as [sh|e]; [|reflexivity]. cbn [bind]. rewrite H, amplitude_clean. reflexivity.
Qed.

(** ** With a nan *)
Lemma mixes_nan f (a : arr (option C)) r : has_nan a = true -> f (known (RtoC 0) a) = Ok r -> mixes f a = Ok (amap (fun _ => None) r).
Proof. intros H E. unfold mixes. rewrite E, H. reflexivity. Qed.
Lemma mixes_any f (a : arr (option C)) r : f (known (RtoC 0) a) = Ok r -> exists r', mixes f a = Ok r' /\ nr r' = nr r /\ nc r' = nc r.
Proof. intros E. unfold mixes. rewrite E. cbn [bind]. eexists. split; [reflexivity|]. destruct (has_nan a); split; reflexivity. Qed.
Lemma all_nan_first (a : arr (option R)) : 0 < nr a -> 0 < nc a -> (forall i j, at2 a i j = None) -> argmax2_n a = Ok (0, 0).
Proof.
  intros Hr Hc N. unfold argmax2_n.
  replace (filter _ (indices (nr a) (nc a))) with (indices (nr a) (nc a)).
  - unfold indices, zrange. destruct (Z.to_nat (nr a)) eqn:E1; [lia|]. destruct (Z.to_nat (nc a)) eqn:E2; [lia|]. reflexivity.
  - induction (indices (nr a) (nc a)) as [|p l IH]; [reflexivity|]. cbn [filter]. rewrite N. cbn [isnan]. f_equal. exact IH.
Qed.
Lemma fft2_ok (e : arr C) : 0 < nr e -> 0 < nc e -> fft2 e = Ok (Arr (nr e) (nc e) (fft2_at e)).
Proof. intros. unfold fft2. rewrite nonempty_true by auto. reflexivity. Qed.
Lemma ifft2_ok (e : arr C) : 0 < nr e -> 0 < nc e -> ifft2 e = Ok (Arr (nr e) (nc e) (ifft2_at e)).
Proof. intros. unfold ifft2. rewrite nonempty_true by auto. reflexivity. Qed.
Lemma wrap_zero n : 0 < n -> wrap_shift n 0 = 0.
Proof. intros H. unfold wrap_shift. pose proof (Z.div_pos n 2 ltac:(lia) ltac:(lia)). destruct (Z.ltb_spec (n / 2) 0); lia. Qed.
Lemma nearest_zero x : x = 0%R -> ZnearestE x = 0.
Proof. intros ->. apply (Zrnd_IZR ZnearestE 0). Qed.

Section Nan.
Variables (src tgt : arr (option R)) (u pad : R).
Hypothesis (Hr : 0 < nr src) (Hc : 0 < nc src) (Sr : nr tgt = nr src) (Sc : nc tgt = nc src).
Hypothesis Bad : has_nan src = true \/ has_nan tgt = true.
Lemma peak_nan : exists r, peak_shift_n src tgt u pad = r /\
  (u = 1%R -> r = Ok (0%R, 0%R)) /\
  (u <> 1%R -> 0 < Zceil (u * pad) -> let s := (- (IZR (Zceil (u * pad) / 2) / u))%R in r = Ok (s, s)).
Proof.
  eexists. split; [reflexivity|]. unfold peak_shift_n.
  set (a := amap (omap RtoC) src). set (b := amap (omap RtoC) tgt).
  destruct (mixes_any fft2 a _ (fft2_ok (known (RtoC 0) a) Hr Hc)) as (F & EF & F1 & F2). cbn in F1, F2.
  destruct (mixes_any fft2 b _ (fft2_ok (known (RtoC 0) b) ltac:(cbn; lia) ltac:(cbn; lia))) as (G & EG & G1 & G2). cbn in G1, G2.
  assert (All : (forall i j, at2 F i j = None) \/ (forall i j, at2 G i j = None)).
  { assert (L : forall (x : arr (option R)), has_nan x = true -> has_nan (amap (omap RtoC) x) = true).
    { intros x H. apply has_nan_iff in H as (i & j & I & N). apply has_nan_iff. exists i, j. split; [exact I|]. cbn [amap at2]. rewrite N. reflexivity. }
    destruct Bad as [N|N]; apply L in N.
    - left. rewrite (mixes_nan fft2 a _ N (fft2_ok (known (RtoC 0) a) Hr Hc)) in EF. injection EF as <-. reflexivity.
    - right. rewrite (mixes_nan fft2 b _ N (fft2_ok (known (RtoC 0) b) ltac:(cbn; lia) ltac:(cbn; lia))) in EG. injection EG as <-. reflexivity. }
  rewrite EF, EG. cbn [bind]. set (ip := amap2 _ F G).
  assert (P : forall i j, at2 ip i j = None).
  { intros i j. unfold ip. cbn [amap2 at2]. destruct All as [N|N]; rewrite N; [reflexivity|]. destruct (at2 F i j); reflexivity. }
  assert (P1 : nr ip = nr src) by exact F1. assert (P2 : nc ip = nc src) by exact F2.
  assert (HN : has_nan ip = true) by (apply has_nan_iff; exists 0, 0; split; [split; rewrite ?P1, ?P2; lia|apply P]).
  rewrite (mixes_nan ifft2 ip _ HN (ifft2_ok (known (RtoC 0) ip) ltac:(change (0 < nr ip); lia) ltac:(change (0 < nc ip); lia))). cbn [bind].
  rewrite all_nan_first; [|change (0 < nr ip); lia|change (0 < nc ip); lia|reflexivity]. cbn [bind fst snd]. rewrite !wrap_zero by auto.
  destruct (Req_EM_T u 1) as [E|E]; [split; [auto|tauto]|]. split; [tauto|]. intros _ Hg.
  rewrite (proj2 (Z.ltb_lt 0 _) Hg). cbn [guard bind]. rewrite !(nearest_zero (0 * u)) by ring.
  assert (U0 : u <> 0%R).
  { intros ->. rewrite Rmult_0_l, (Zceil_IZR 0) in Hg. lia. }
  set (o := (_ - _)%R).
  assert (HN2 : has_nan (amap (omap Cconj) ip) = true) by (apply has_nan_iff; exists 0, 0; split; [split; cbn [amap nr nc]; rewrite ?P1, ?P2; lia|cbn [amap at2]; rewrite P; reflexivity]).
  match goal with |- context [mixes ?f (amap (omap Cconj) ip)] => destruct (f (known (RtoC 0) (amap (omap Cconj) ip))) as [r|e] eqn:Er end.
  - rewrite (mixes_nan _ _ r HN2 Er). cbn [bind].
    unfold compute_upsampled_dft in Er. destruct (Req_EM_T u 0) as [|_]; [tauto|]. cbn [guard bind] in Er.
    rewrite nonempty_true in Er; [|change (0 < nr ip); lia|change (0 < nc ip); lia]. cbn [guard bind] in Er. injection Er as <-.
    rewrite all_nan_first; [|cbn; lia|cbn; lia|reflexivity]. cbn [bind fst snd].
    replace (0 - Zceil (u * pad) / 2) with (- (Zceil (u * pad) / 2)) by lia. rewrite opp_IZR. f_equal. f_equal; field; auto.
  - exfalso. unfold compute_upsampled_dft in Er. destruct (Req_EM_T u 0) as [|_]; [tauto|]. cbn [guard bind] in Er.
    rewrite nonempty_true in Er; [|change (0 < nr ip); lia|change (0 < nc ip); lia]. discriminate Er.
Qed.
End Nan.

Lemma amplitude_nan tgt guess thr : has_nan tgt = true -> amplitude_ratio_n tgt guess thr = None.
Proof.
  intros H. unfold amplitude_ratio_n. rewrite H. set (m := amap _ tgt).
  assert (S0 : select m guess = []).
  { unfold select. replace (filter _ _) with (@nil (Z * Z)); [reflexivity|].
    induction (indices (nr guess) (nc guess)) as [|[i j] l IH]; [reflexivity|]. cbn [filter fst snd]. unfold m at 1. cbn [amap at2]. destruct (at2 tgt i j); exact IH. }
  rewrite S0. cbn. destruct (Req_EM_T 0 0); [reflexivity|tauto].
Qed.
Lemma psffit_nan shift_n src tgt cfg k : read_config cfg = Ok k -> 0 < nr src -> 0 < nc src -> nr tgt = nr src -> nc tgt = nc src ->
  has_nan src = true \/ has_nan tgt = true ->
  (upsample_factor k = 1%R \/ 0 < Zceil (upsample_factor k * pad_factor k)) ->
  exists amp, psffit_n shift_n src tgt cfg =
    Ok (if Req_EM_T (upsample_factor k) 1 then (0, 0)%R
        else let s := (IZR (Zceil (upsample_factor k * pad_factor k) / 2) / upsample_factor k)%R in (s, s), amp) /\
    (has_nan tgt = true -> amp = None).
Proof.
  intros Ec Hr Hc Sr Sc Bad Hu. unfold psffit_n. rewrite Ec. cbn [bind].
  assert (Es : same_shape src tgt = true) by (unfold same_shape; rewrite Sr, Sc, !Z.eqb_refl; reflexivity). rewrite Es. cbn [guard bind].
  destruct (peak_nan src tgt (upsample_factor k) (pad_factor k) Hr Hc Sr Sc Bad) as (r & E & H1 & H2). rewrite E.
  destruct (Req_EM_T (upsample_factor k) 1) as [U|U].
  - rewrite (H1 U). cbn [bind fst snd]. eexists. split; [rewrite Ropp_0; reflexivity|]. intros N. apply amplitude_nan; auto.
  - destruct Hu as [?|Hu]; [tauto|]. rewrite (H2 U Hu). cbv zeta. cbn [bind fst snd]. eexists. split; [rewrite Ropp_involutive; reflexivity|].
    intros N. apply amplitude_nan; auto.
Qed.
Lemma odot_self_nan l : In None l -> odot l l = None.
Proof.
  unfold odot. induction l as [|x l IH]; [intros []|]. intros [->|I]; [reflexivity|]. cbn [List.combine map fold_right fst snd].
  rewrite (IH I). destruct (omap2 Rmult x x); reflexivity.
Qed.
Lemma amplitude_guess tgt guess thr i j : nr guess = nr tgt -> nc guess = nc tgt -> in_arr tgt i j ->
  (thr * amax tgt < at2 tgt i j)%R -> at2 guess i j = None -> amplitude_ratio_n (amap Some tgt) guess thr = None.
Proof.
  intros Gr Gc I Hi Ng. unfold amplitude_ratio_n. rewrite has_nan_some, known_some.
  set (m := amap _ (amap Some tgt)).
  assert (Mi : at2 m i j = true).
  { unfold m. cbn [amap at2]. destruct (Rlt_dec (thr * amax tgt) (at2 tgt i j)); [reflexivity|tauto]. }
  rewrite (odot_self_nan (select m guess)).
  - destruct (odot _ _); reflexivity.
  - unfold select. apply in_map_iff. exists (i, j). split; [exact Ng|]. apply filter_In. split; [|exact Mi]. apply in_indices.
    cbn [fst snd]. rewrite Gr, Gc. exact I.
Qed.
