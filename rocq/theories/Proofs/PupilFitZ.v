(** fit_pupil_zernikes. *)
From Coq Require Import ZArith Bool List Reals Lra Lia String.
From Verif.Base Require Import Py Arr Vec Sums Lstsq.
From Verif.Model Require Import Math Noll Fits PadCrop PsfFit MaskGen PupilUtil FitShapes Unwrap PupilFit.
From Verif.Spec Require Import ZernikeSpec FitsSpec UnwrapSpec PupilUtilSpec PupilFitSpec.
From Verif.Proofs Require Import DarkHoleP ZernP UnwrapP PupilUtilP PupilFitP PupilFitQ.
Import ListNotations.
Open Scope list_scope.
Open Scope Z_scope.

Lemma bc_eq n : bc_size n n = Ok n.
Proof. unfold bc_size. rewrite Z.eqb_refl. reflexivity. Qed.
Lemma bc_idx_in n i : 0 <= i < n -> bc_idx n i = i.
Proof. unfold bc_idx. intros. destruct (Z.eqb_spec n 1); lia. Qed.
Lemma fold_plus l v : fold_right Rplus v l = (fold_right Rplus 0 l + v)%R.
Proof. induction l as [|w l IH]; cbn [fold_right]; [ring|]. rewrite IH. ring. Qed.
Lemma fold_zrange (f : Z -> R) n : fold_right Rplus 0%R (map f (zrange n)) = rsum f n.
Proof.
  unfold zrange, rsum, gsum. rewrite map_map. induction (Z.to_nat n) as [|k IH]; [reflexivity|].
  rewrite seq_S, map_app, fold_right_app, fold_plus, IH. cbn [gnsum map fold_right Nat.add]. rewrite Rplus_0_r. reflexivity.
Qed.
Lemma residual_ok wfe mask n coefs x y d : 1 <= n -> nr mask = nr wfe -> nc mask = nc wfe -> nc wfe = nr wfe -> 0 < nr wfe -> nr wfe <> 1000000 ->
  (0 < d)%R ->
  exists o, residual wfe mask n coefs x y d = Ok o /\ nr o = nr wfe /\ nc o = nc wfe /\
    forall Zf, is_mode_fun (d / 2) Zf -> forall r c, in_arr wfe r c -> at2 o r c = (at2 wfe r c - at2 mask r c * mode_comb n Zf x y wfe coefs r c)%R.
Proof.
  intros Hn S1 S2 Sq P1 P2 Hd. unfold residual.
  assert (K : forall Zf, is_mode_fun (d / 2) Zf -> exists out, gen_zernikes (map (fun k => k + 1) (zrange n)) (map coefs (zrange n)) x y d (nr wfe) = Ok out /\
     nr out = nr wfe /\ nc out = nr wfe /\ forall r c, in_arr wfe r c -> at2 out r c = mode_comb n Zf x y wfe coefs r c).
  { intros Zf HZ. destruct (gen_zernikes_modes (map (fun k => k + 1) (zrange n)) (map coefs (zrange n)) x y d (nr wfe) Zf) as (out & E & R1 & R2 & V); auto.
    - rewrite !map_length. reflexivity.
    - assert (L : In 1 (map (fun k => k + 1) (zrange n))) by (apply (in_map (fun k => k + 1) _ 0), in_zrange; lia). intros E; rewrite E in L; destruct L.
    - intros j Hj. apply in_map_iff in Hj as (k & <- & Hk). apply in_zrange in Hk. lia.
    - exists out. repeat split; auto. intros r c [Hr Hc]. rewrite V by lia. unfold mode_comb. rewrite <- fold_zrange. f_equal.
      assert (C : forall l, List.combine (map coefs l) (map (fun k => k + 1) l) = map (fun k => (coefs k, k + 1)) l).
      { induction l as [|v l IH]; cbn; [reflexivity|]. rewrite IH. reflexivity. }
      rewrite C, map_map. cbn [fst snd]. unfold mode_at. rewrite Sq. reflexivity. }
  destruct (K _ (mode_fun_ex (d / 2) ltac:(lra))) as (g & E & R1 & R2 & _). rewrite E. cbn [bind].
  unfold broadcast. rewrite S1, S2, R1, R2, Sq, !bc_eq. cbn [bind nr nc at2]. rewrite ?Sq, ?bc_eq. cbn [bind]. eexists. split; [reflexivity|].
  split; [reflexivity|]. split; [reflexivity|]. intros Zf HZ r c [Hr Hc]. cbn [nr nc at2]. rewrite Sq in Hc. rewrite !bc_idx_in by lia.
  destruct (K Zf HZ) as (g' & E' & _ & _ & V). rewrite E in E'. injection E' as <-. rewrite V by (split; lia). reflexivity.
Qed.

Lemma all_01 b : forallb (fun v => if Req_EM_T v 0 then true else if Req_EM_T v 1 then true else false) (elements b) = true <-> zero_one b.
Proof.
  rewrite forallb_forall. unfold elements. split.
  - intros H r c I. specialize (H (at2 b r c)). destruct (Req_EM_T (at2 b r c) 0); [left; auto|]. destruct (Req_EM_T (at2 b r c) 1); [right; auto|].
    exfalso. assert (false = true); [|discriminate]. apply H. apply in_map_iff. exists (r, c). split; [reflexivity|]. apply in_indices. exact I.
  - intros H v I. apply in_map_iff in I as ([r c] & <- & I). apply in_indices in I. cbn [fst snd] in *. destruct (H r c I) as [->| ->].
    + destruct (Req_EM_T 0 0); [reflexivity|lra].
    + destruct (Req_EM_T 1 0); [reflexivity|]. destruct (Req_EM_T 1 1); [reflexivity|lra].
Qed.

Section Z.
Variables (fit : arr R -> res (R * R * R * R)) (lstsq : lstsq_fun).
Hypothesis lstsq_ok : is_lstsq_oracle lstsq.
Local Notation pz := (fit_pupil_zernikes fit lstsq).
(** The mask the code fits on. *)
Definition mask_of (amp : arr R) (bMask : option (arr R)) (sel : option (arr bool)) : res (arr R) :=
  match bMask with
  | Some b => Ok b
  | None => do t <- ampthresh amp 21; do e <- match sel with Some s => binary_erosion t s | None => Ok t end; Ok (amap of_bool e)
  end.
Lemma pz_rejects_mask wfe amp b n sel : (exists r c, in_arr b r c /\ at2 b r c <> 0%R /\ at2 b r c <> 1%R) -> pz wfe amp (Some b) n sel = Err TypeError.
Proof.
  intros (r & c & I & N0 & N1). unfold fit_pupil_zernikes. destruct (forallb _ (elements b)) eqn:E; [|reflexivity].
  apply all_01 in E. destruct (E r c I); contradiction.
Qed.
Lemma pz_rejects_max wfe amp b n sel : n <= 0 -> pz wfe amp b n sel = Err TypeError.
Proof.
  intros H. unfold fit_pupil_zernikes. destruct (match b with Some _ => _ | None => _ end); [|reflexivity]. cbn [guard bind].
  destruct (Z.ltb_spec 0 n); [lia|reflexivity].
Qed.
Lemma pz_unfold wfe amp b n sel x y c d : (forall m, b = Some m -> zero_one m) -> 0 < n -> fit amp = Ok (x, y, c, d) ->
  pz wfe amp b n sel = (do m <- mask_of amp b sel; do v <- fit_zernikes lstsq wfe m (Z.max 3 n) d x y; do p <- residual wfe m 3 v x y d;
    do o <- residual wfe m (Z.max 3 n) v x y d;
    Ok {| z_coefs := Vec (Z.max 3 n) v; z_mask := m; z_res_ptt := p; z_res := o; z_diam := d; z_x := x; z_y := y |}).
Proof.
  intros Hb Hn Hf. unfold fit_pupil_zernikes.
  replace (match b with Some _ => _ | None => true end) with true.
  2:{ symmetry. destruct b as [m|]; [apply all_01, Hb; reflexivity|reflexivity]. }
  rewrite (proj2 (Z.ltb_lt 0 n) Hn). cbn [guard bind]. rewrite Hf. cbn [bind].
  replace (if n <? 3 then 3 else n) with (Z.max 3 n); [reflexivity|]. destruct (Z.ltb_spec n 3); lia.
Qed.
Lemma pz_inv wfe amp b n sel z : pz wfe amp b n sel = Ok z -> (forall m, b = Some m -> zero_one m) /\ 0 < n /\ exists c, fit amp = Ok (z_x z, z_y z, c, z_diam z).
Proof.
  unfold fit_pupil_zernikes. intros H. apply guard_ok in H as [G H]. apply guard_ok in H as [G2 H]. cbv zeta in H. apply bind_ok in H as ([[[x y] c] d] & Hf & H).
  apply bind_ok in H as (m & _ & H). apply bind_ok in H as (v & _ & H). apply bind_ok in H as (p & _ & H). apply bind_ok in H as (o & _ & H). injection H as <-.
  cbn [z_x z_y z_diam]. split; [|split; [apply Z.ltb_lt, G2|exists c; exact Hf]]. intros m0 ->. apply all_01, G.
Qed.
(** The mask holds zeros and ones and is as large as its source. *)
Lemma mask_01 amp b sel m : (forall b', b = Some b' -> zero_one b') -> mask_of amp b sel = Ok m -> zero_one m.
Proof.
  unfold mask_of. intros Hb E. destruct b as [b|].
  - injection E as <-. apply Hb. reflexivity.
  - apply bind_ok in E as (t & _ & E). apply bind_ok in E as (e & _ & E). injection E as <-. intros r c _. cbn [amap at2]. unfold of_bool. destruct (at2 e r c); auto.
Qed.
Lemma mask_made amp sel m : mask_of amp None sel = Ok m -> exists t e, ampthresh amp 21 = Ok t /\
  match sel with Some s => eroded t s e | None => e = t end /\ m = zero_one_of e.
Proof.
  unfold mask_of. intros E. apply bind_ok in E as (t & Et & E). apply bind_ok in E as (e & Ee & E). injection E as <-. exists t, e. split; [exact Et|].
  split; [|reflexivity]. destruct sel as [s|]; [apply erosion_ok, Ee|congruence].
Qed.
Lemma mask_fitted amp b sel m : mask_of amp b sel = Ok m -> fitted_mask amp b sel m.
Proof. destruct b as [b|]; [intros [=]; cbn; auto|apply mask_made]. Qed.
(** Everything about a successful call on a square map. *)
Lemma pz_ok wfe amp b n sel z : nc wfe = nr wfe -> 0 < nr wfe -> nr wfe <> 1000000 -> pz wfe amp b n sel = Ok z ->
  let N := Z.max 3 n in let v := vat (z_coefs z) in
  mask_of amp b sel = Ok (z_mask z) /\ zero_one (z_mask z) /\ nr (z_mask z) = nr wfe /\ nc (z_mask z) = nc wfe /\ (0 < z_diam z)%R /\ vlen (z_coefs z) = N /\
  nr (z_res z) = nr wfe /\ nc (z_res z) = nc wfe /\ nr (z_res_ptt z) = nr wfe /\ nc (z_res_ptt z) = nc wfe /\
  fit_zernikes lstsq wfe (z_mask z) N (z_diam z) (z_x z) (z_y z) = Ok v /\
  forall Zf, is_mode_fun (z_diam z / 2) Zf ->
    (forall r c, in_arr wfe r c -> at2 (z_res z) r c = (at2 wfe r c - at2 (z_mask z) r c * mode_comb N Zf (z_x z) (z_y z) wfe v r c)%R) /\
    (forall r c, in_arr wfe r c -> at2 (z_res_ptt z) r c = (at2 wfe r c - at2 (z_mask z) r c * mode_comb 3 Zf (z_x z) (z_y z) wfe v r c)%R).
Proof.
  intros Sq P1 P2 H. cbv zeta. destruct (pz_inv _ _ _ _ _ _ H) as (Hb & Hn & c & Hf). rewrite (pz_unfold wfe amp b n sel _ _ _ _ Hb Hn Hf) in H.
  apply bind_ok in H as (m & Em & H). apply bind_ok in H as (v & Ev & H). apply bind_ok in H as (p & Ep & H). apply bind_ok in H as (o & Eo & H).
  assert (Q : nr m = nr wfe /\ nc m = nc wfe /\ (0 < z_diam z)%R).
  { unfold fit_zernikes, guard in Ev. destruct (same_shape wfe m) eqn:Es; [|discriminate]. cbn [bind] in Ev. destruct (0 <? Z.max 3 n); [|discriminate]. cbn [bind] in Ev.
    destruct (Rlt_dec 0 (z_diam z)); [|discriminate]. unfold same_shape in Es. lia || (apply andb_true_iff in Es as [A B]; apply Z.eqb_eq in A, B; auto). }
  destruct Q as (S1 & S2 & Hd).
  destruct (residual_ok wfe m 3 v (z_x z) (z_y z) (z_diam z)) as (p' & Ep' & P3 & P4 & Vp); auto; [lia|]. rewrite Ep in Ep'. injection Ep' as <-.
  destruct (residual_ok wfe m (Z.max 3 n) v (z_x z) (z_y z) (z_diam z)) as (o' & Eo' & O3 & O4 & Vo); auto; [lia|]. rewrite Eo in Eo'. injection Eo' as <-.
  injection H as Hz. rewrite <- Hz in *. cbn [z_coefs z_mask z_res_ptt z_res z_diam z_x z_y vlen vat] in *.
  split; [exact Em|]. split; [eapply mask_01; eassumption|]. split; [exact S1|]. split; [exact S2|]. split; [exact Hd|]. split; [reflexivity|].
  repeat (split; [assumption|]). intros Zf HZ. split; [apply Vo, HZ|apply Vp, HZ].
Qed.
Lemma pz_total wfe amp b n sel x y c d m : nc wfe = nr wfe -> 0 < nr wfe -> nr wfe <> 1000000 -> (forall b', b = Some b' -> zero_one b') -> 0 < n ->
  fit amp = Ok (x, y, c, d) -> (0 < d)%R -> mask_of amp b sel = Ok m -> nr m = nr wfe -> nc m = nc wfe -> exists z, pz wfe amp b n sel = Ok z.
Proof.
  intros Sq P1 P2 Hb Hn Hf Hd Em S1 S2. rewrite (pz_unfold wfe amp b n sel x y c d Hb Hn Hf), Em. cbn [bind].
  rewrite (fit_ok_eq lstsq wfe m (Z.max 3 n) d x y) by (auto; lia). cbn [bind]. set (v := lstsq _ _ _ _).
  destruct (residual_ok wfe m 3 v x y d) as (p & -> & _); auto; [lia|]. cbn [bind].
  destruct (residual_ok wfe m (Z.max 3 n) v x y d) as (o & -> & _); auto; [lia|]. cbn [bind]. eauto.
Qed.
(** Least squares on the mask, in terms of the residual map. *)
Lemma pz_lsq wfe amp b n sel z Zf : nc wfe = nr wfe -> 0 < nr wfe -> nr wfe <> 1000000 -> pz wfe amp b n sel = Ok z -> is_mode_fun (z_diam z / 2) Zf ->
  let N := Z.max 3 n in
  (forall k, 0 <= k < N -> usable_sum (z_mask z) (fun r c => mode_at Zf (z_x z) (z_y z) wfe (k + 1) r c * at2 (z_res z) r c)%R = 0%R) /\
  (forall a, (usable_sum (z_mask z) (fun r c => at2 (z_res z) r c ^ 2) <=
              usable_sum (z_mask z) (fun r c => (at2 wfe r c - mode_comb N Zf (z_x z) (z_y z) wfe a r c) ^ 2))%R).
Proof.
  intros Sq P1 P2 H HZ. cbv zeta. destruct (pz_ok _ _ _ _ _ _ Sq P1 P2 H) as (_ & M01 & S1 & S2 & Hd & _ & _ & _ & _ & _ & Ev & K). destruct (K Zf HZ) as [V _].
  destruct (fit_orthogonal lstsq lstsq_ok wfe (z_mask z) (Z.max 3 n) (z_diam z) (z_x z) (z_y z) (eq_sym S1) (eq_sym S2) ltac:(lia) Hd Zf HZ) as (v & Ev' & A & B).
  rewrite Ev in Ev'. injection Ev' as Ev'. rewrite <- Ev' in A, B.
  assert (U : forall g, usable_sum (z_mask z) (fun r c => g r c (at2 (z_res z) r c)) =
    usable_sum (z_mask z) (fun r c => g r c (at2 wfe r c - mode_comb (Z.max 3 n) Zf (z_x z) (z_y z) wfe (vat (z_coefs z)) r c)%R)).
  { intros g. unfold usable_sum. apply rsum2_ext. intros r c Hr Hc. destruct (Req_EM_T _ 0) as [|N0]; [reflexivity|]. f_equal.
    rewrite V by (split; lia). destruct (M01 r c) as [E|E]; [split; lia|contradiction|]. rewrite E. ring. }
  split.
  - intros k Hk. rewrite (U (fun r c e => mode_at Zf (z_x z) (z_y z) wfe (k + 1) r c * e)%R). apply A, Hk.
  - intros a. rewrite (U (fun r c e => e ^ 2)%R). apply B.
Qed.
(** Removing more modes never leaves a larger residual. *)
Lemma mode_comb_ext N Zf x y w a a' r c : (forall k, 0 <= k < N -> a k = a' k) -> mode_comb N Zf x y w a r c = mode_comb N Zf x y w a' r c.
Proof. intros H. unfold mode_comb. apply rsum_ext. intros k Hk. rewrite H by exact Hk. reflexivity. Qed.
Lemma mode_comb_zero N Zf x y w r c : mode_comb N Zf x y w (fun _ => 0%R) r c = 0%R.
Proof. unfold mode_comb. apply rsum_all_zero. intros. ring. Qed.
Lemma mode_comb_lin N Zf x y w a b s r c : mode_comb N Zf x y w (fun k => s * a k + b k)%R r c =
  (s * mode_comb N Zf x y w a r c + mode_comb N Zf x y w b r c)%R.
Proof. unfold mode_comb. rewrite <- rsum_scal, <- rsum_add. apply rsum_ext. intros. ring. Qed.
Lemma mode_comb_cut N Zf x y w a r c : 3 <= N -> mode_comb N Zf x y w (fun k => if k <? 3 then a k else 0%R) r c = mode_comb 3 Zf x y w a r c.
Proof.
  intros H. unfold mode_comb, rsum, gsum. replace (Z.to_nat N) with (3 + (Z.to_nat N - 3))%nat by lia. change (Z.to_nat 3) with 3%nat.
  induction (Z.to_nat N - 3)%nat as [|j IH]; [reflexivity|]. replace (3 + S j)%nat with (S (3 + j)) by lia. cbn [gnsum Nat.add] in *. rewrite IH.
  destruct (Z.ltb_spec (Z.of_nat (S (S (S j)))) 3); [lia|]. ring.
Qed.
Lemma pz_smaller wfe amp b n sel z : nc wfe = nr wfe -> 0 < nr wfe -> nr wfe <> 1000000 -> pz wfe amp b n sel = Ok z ->
  (usable_sum (z_mask z) (fun r c => at2 (z_res z) r c ^ 2) <= usable_sum (z_mask z) (fun r c => at2 (z_res_ptt z) r c ^ 2))%R /\
  (usable_sum (z_mask z) (fun r c => at2 (z_res z) r c ^ 2) <= usable_sum (z_mask z) (fun r c => at2 wfe r c ^ 2))%R.
Proof.
  intros Sq P1 P2 H. destruct (pz_ok _ _ _ _ _ _ Sq P1 P2 H) as (_ & M01 & S1 & S2 & Hd & _ & _ & _ & _ & _ & _ & K).
  set (Zf := fun j => zern_xy j (z_diam z / 2)). assert (HZ : is_mode_fun (z_diam z / 2) Zf) by (apply mode_fun_ex; lra).
  destruct (K Zf HZ) as [_ V]. destruct (pz_lsq _ _ _ _ _ _ Zf Sq P1 P2 H HZ) as [_ B]. split.
  - eapply Rle_trans; [apply (B (fun k => if k <? 3 then vat (z_coefs z) k else 0%R))|]. apply Req_le. unfold usable_sum. apply rsum2_ext. intros r c Hr Hc.
    destruct (Req_EM_T _ 0) as [|N0]; [reflexivity|]. rewrite V by (split; lia). rewrite mode_comb_cut by lia.
    destruct (M01 r c) as [E|E]; [split; lia|contradiction|]. rewrite E. ring.
  - eapply Rle_trans; [apply (B (fun _ => 0%R))|]. apply Req_le. unfold usable_sum. apply rsum2_ext. intros r c Hr Hc.
    destruct (Req_EM_T _ 0) as [|N0]; [reflexivity|]. rewrite mode_comb_zero. ring.
Qed.
(** Coefficients follow any scaling of the phase and any added combination of modes. *)
Lemma usable_lin m f g s : (usable_sum m (fun r c => s * f r c + g r c) = s * usable_sum m f + usable_sum m g)%R.
Proof. unfold usable_sum. rewrite <- rsum2_scal, <- rsum2_add. apply rsum2_ext. intros. destruct (Req_EM_T _ 0); ring. Qed.
Lemma usable_scal m f s : (usable_sum m (fun r c => s * f r c) = s * usable_sum m f)%R.
Proof. unfold usable_sum. rewrite <- rsum2_scal. apply rsum2_ext. intros. destruct (Req_EM_T _ 0); ring. Qed.
Lemma usable_ext m f g : (forall r c, used m r c -> f r c = g r c) -> usable_sum m f = usable_sum m g.
Proof. intros H. unfold usable_sum. apply rsum2_ext. intros r c Hr Hc. destruct (Req_EM_T _ 0); [reflexivity|]. apply H. split; [split; lia|assumption]. Qed.
Lemma usable_zero m f : (forall r c, used m r c -> (0 <= f r c)%R) -> usable_sum m f = 0%R -> forall r c, used m r c -> f r c = 0%R.
Proof.
  intros P E r c [[Hr Hc] N]. unfold usable_sum in E.
  assert (Q : (f r c <= 0)%R); [|pose proof (P r c (conj (conj Hr Hc) N)); lra].
  rewrite <- E. pose proof (rsum2_term_le (fun r c => if Req_EM_T (at2 m r c) 0 then 0%R else f r c) (nr m) (nc m) r c) as T. cbv beta in T.
  destruct (Req_EM_T (at2 m r c) 0); [contradiction|]. apply T; auto.
  intros i j Hi Hj. destruct (Req_EM_T (at2 m i j) 0); [lra|]. apply P. split; [split; assumption|assumption].
Qed.
Lemma usable_rsum m (f : Z -> Z -> Z -> R) N : usable_sum m (fun r c => rsum (fun k => f k r c) N) = rsum (fun k => usable_sum m (f k)) N.
Proof.
  unfold rsum, gsum. induction (Z.to_nat N) as [|k IH]; cbn [gnsum].
  - unfold usable_sum. rewrite (rsum2_ext _ (fun _ _ => 0%R)); [apply rsum2_zero|]. intros. destruct (Req_EM_T _ 0); reflexivity.
  - rewrite <- IH. rewrite (usable_ext m _ (fun r c => 1 * gnsum R 0%R Rplus (fun k => f k r c) k + f (Z.of_nat k) r c)%R) by (intros; ring).
    rewrite usable_lin. ring.
Qed.
Lemma pz_affine wfe wfe' amp b n sel z z' s a Zf : nc wfe = nr wfe -> 0 < nr wfe -> nr wfe <> 1000000 -> nr wfe' = nr wfe -> nc wfe' = nc wfe ->
  pz wfe amp b n sel = Ok z -> pz wfe' amp b n sel = Ok z' -> is_mode_fun (z_diam z / 2) Zf ->
  modes_independent (Z.max 3 n) Zf (z_x z) (z_y z) wfe (z_mask z) ->
  (forall r c, used (z_mask z) r c -> at2 wfe' r c = (s * at2 wfe r c + mode_comb (Z.max 3 n) Zf (z_x z) (z_y z) wfe a r c)%R) ->
  forall k, 0 <= k < Z.max 3 n -> vat (z_coefs z') k = (s * vat (z_coefs z) k + a k)%R.
Proof.
  intros Sq P1 P2 R1 R2 H H' HZ Ind W.
  destruct (pz_inv _ _ _ _ _ _ H) as (_ & _ & c1 & F1). destruct (pz_inv _ _ _ _ _ _ H') as (_ & _ & c2 & F2). rewrite F1 in F2. injection F2 as X Y _ D.
  destruct (pz_ok _ _ _ _ _ _ Sq P1 P2 H) as (Em & M01 & S1 & S2 & Hd & _ & _ & _ & _ & _ & _ & K). destruct (K Zf HZ) as [V _].
  destruct (pz_ok wfe' amp b n sel z' ltac:(congruence) ltac:(congruence) ltac:(congruence) H') as (Em' & _ & _ & _ & _ & _ & _ & _ & _ & _ & _ & K').
  rewrite <- D, <- X, <- Y in K'. destruct (K' Zf HZ) as [V' _]. rewrite Em in Em'. injection Em' as Em'.
  destruct (pz_lsq _ _ _ _ _ _ Zf Sq P1 P2 H HZ) as [A _].
  destruct (pz_lsq wfe' amp b n sel z' Zf ltac:(congruence) ltac:(congruence) ltac:(congruence) H' ltac:(rewrite <- D; exact HZ)) as [A' _].
  rewrite <- Em', <- X, <- Y in A'. rewrite <- Em' in V'.
  set (N := Z.max 3 n) in *. set (u := fun k => (-1 * vat (z_coefs z') k + (s * vat (z_coefs z) k + a k))%R).
  assert (MA : forall k r c, mode_at Zf (z_x z) (z_y z) wfe' k r c = mode_at Zf (z_x z) (z_y z) wfe k r c) by (intros; unfold mode_at; rewrite R1, R2; reflexivity).
  assert (MC : forall v r c, mode_comb N Zf (z_x z) (z_y z) wfe' v r c = mode_comb N Zf (z_x z) (z_y z) wfe v r c) by (intros; unfold mode_comb; apply rsum_ext; intros; rewrite MA; reflexivity).
  assert (D0 : forall r c, used (z_mask z) r c -> mode_comb N Zf (z_x z) (z_y z) wfe u r c = (-s * at2 (z_res z) r c + at2 (z_res z') r c)%R).
  { intros r c U. pose proof U as [I N0]. assert (I' : in_arr wfe r c) by (unfold in_arr in *; rewrite <- S1, <- S2; exact I).
    assert (I2 : in_arr wfe' r c) by (unfold in_arr in *; rewrite R1, R2; exact I').
    assert (E1 : at2 (z_mask z) r c = 1%R) by (destruct (M01 r c I); [contradiction|assumption]).
    rewrite V, V', MC, W, E1 by assumption. unfold u. rewrite (mode_comb_lin N Zf (z_x z) (z_y z) wfe (vat (z_coefs z')) (fun k => s * vat (z_coefs z) k + a k)%R (-1)), mode_comb_lin. ring. }
  assert (O1 : forall k, 0 <= k < N -> usable_sum (z_mask z) (fun r c => mode_at Zf (z_x z) (z_y z) wfe (k + 1) r c * mode_comb N Zf (z_x z) (z_y z) wfe u r c)%R = 0%R).
  { intros k Hk. rewrite (usable_ext (z_mask z) _ (fun r c => -s * (mode_at Zf (z_x z) (z_y z) wfe (k + 1) r c * at2 (z_res z) r c) + mode_at Zf (z_x z) (z_y z) wfe (k + 1) r c * at2 (z_res z') r c)%R)
      by (intros; rewrite D0 by assumption; ring).
    rewrite usable_lin, A by exact Hk. rewrite (usable_ext (z_mask z) _ (fun r c => mode_at Zf (z_x z) (z_y z) wfe' (k + 1) r c * at2 (z_res z') r c)%R) by (intros; rewrite MA; reflexivity).
    rewrite A' by exact Hk. ring. }
  assert (O2 : usable_sum (z_mask z) (fun r c => mode_comb N Zf (z_x z) (z_y z) wfe u r c * mode_comb N Zf (z_x z) (z_y z) wfe u r c)%R = 0%R).
  { rewrite (usable_ext (z_mask z) _ (fun r c => rsum (fun k => u k * (mode_at Zf (z_x z) (z_y z) wfe (k + 1) r c * mode_comb N Zf (z_x z) (z_y z) wfe u r c)) N)%R).
    - rewrite usable_rsum. rewrite (rsum_ext _ (fun _ => 0%R)).
      + apply rsum_zero.
      + intros k Hk. pose proof (O1 k Hk) as Q.
        rewrite usable_scal, Q. ring.
    - intros r c _. unfold mode_comb at 1. rewrite Rmult_comm, <- rsum_scal. apply rsum_ext. intros. ring. }
  assert (U0 : forall k, 0 <= k < N -> u k = 0%R).
  { apply Ind. intros r c U.
    pose proof (usable_zero (z_mask z) (fun r c => mode_comb N Zf (z_x z) (z_y z) wfe u r c * mode_comb N Zf (z_x z) (z_y z) wfe u r c)%R) as Q. cbv beta in Q.
    specialize (Q ltac:(intros; apply Rle_0_sqr) O2 r c U). destruct (Rmult_integral _ _ Q); assumption. }
  intros k Hk. specialize (U0 k Hk). unfold u in U0. lra.
Qed.
Lemma pz_recovers wfe amp b n sel z a Zf : nc wfe = nr wfe -> 0 < nr wfe -> nr wfe <> 1000000 -> pz wfe amp b n sel = Ok z -> is_mode_fun (z_diam z / 2) Zf ->
  modes_independent (Z.max 3 n) Zf (z_x z) (z_y z) wfe (z_mask z) ->
  (forall r c, used (z_mask z) r c -> at2 wfe r c = mode_comb (Z.max 3 n) Zf (z_x z) (z_y z) wfe a r c) ->
  (forall k, 0 <= k < Z.max 3 n -> vat (z_coefs z) k = a k) /\ (forall r c, used (z_mask z) r c -> at2 (z_res z) r c = 0%R).
Proof.
  intros Sq P1 P2 H HZ Ind W.
  assert (C : forall k, 0 <= k < Z.max 3 n -> vat (z_coefs z) k = a k).
  { intros k Hk. transitivity (0 * vat (z_coefs z) k + a k)%R; [|ring]. eapply (pz_affine wfe wfe amp b n sel z z 0 a Zf); eauto. intros r c U. rewrite (W r c U). ring. }
  split; [exact C|]. intros r c U. destruct (pz_ok _ _ _ _ _ _ Sq P1 P2 H) as (_ & M01 & S1 & S2 & _ & _ & _ & _ & _ & _ & _ & K). destruct (K Zf HZ) as [V _].
  pose proof U as [I N0]. rewrite V by (unfold in_arr in *; rewrite <- S1, <- S2; exact I). destruct (M01 r c I) as [E|E]; [contradiction|]. rewrite E, W by exact U.
  rewrite (mode_comb_ext _ _ _ _ _ (vat (z_coefs z)) a) by exact C. ring.
Qed.
(** The residual, fitted again, holds none of the modes. *)
Lemma pz_again wfe amp b n sel z z' Zf : nc wfe = nr wfe -> 0 < nr wfe -> nr wfe <> 1000000 -> pz wfe amp b n sel = Ok z -> is_mode_fun (z_diam z / 2) Zf ->
  modes_independent (Z.max 3 n) Zf (z_x z) (z_y z) wfe (z_mask z) -> pz (z_res z) amp (Some (z_mask z)) n sel = Ok z' ->
  forall k, 0 <= k < Z.max 3 n -> vat (z_coefs z') k = 0%R.
Proof.
  intros Sq P1 P2 H HZ Ind H' k Hk.
  destruct (pz_ok _ _ _ _ _ _ Sq P1 P2 H) as (Em & M01 & S1 & S2 & Hd & _ & Z1 & Z2 & _ & _ & _ & K). destruct (K Zf HZ) as [V _].
  destruct (pz_inv _ _ _ _ _ _ H) as (_ & Hn & c1 & F1).
  assert (G : exists z0, pz wfe amp (Some (z_mask z)) n sel = Ok z0).
  { apply (pz_total wfe amp (Some (z_mask z)) n sel _ _ _ _ (z_mask z) Sq P1 P2) with (3 := F1); auto. intros b' Eb. injection Eb as <-. exact M01. }
  destruct G as [z0 G]. destruct (pz_inv _ _ _ _ _ _ G) as (_ & _ & c0 & F0). rewrite F1 in F0. injection F0 as X Y _ D.
  destruct (pz_ok _ _ _ _ _ _ Sq P1 P2 G) as (Em0 & _ & _ & _ & _ & _ & _ & _ & _ & _ & Ev0 & _). injection Em0 as Em0.
  destruct (pz_ok _ _ _ _ _ _ Sq P1 P2 H) as (_ & _ & _ & _ & _ & _ & _ & _ & _ & _ & Ev & _). rewrite <- Em0, <- X, <- Y, <- D, Ev in Ev0. injection Ev0 as Ev0.
  rewrite (pz_affine wfe (z_res z) amp (Some (z_mask z)) n sel z0 z' 1 (fun k => - vat (z_coefs z) k)%R Zf); auto; try (rewrite <- ?D, <- ?X, <- ?Y, <- ?Em0; assumption).
  - rewrite <- Ev0. ring.
  - intros r c U. rewrite <- Em0 in U. pose proof U as [I N0]. rewrite V by (unfold in_arr in *; rewrite <- S1, <- S2; exact I).
    destruct (M01 r c I) as [E|E]; [contradiction|]. rewrite E, <- X, <- Y.
    rewrite (mode_comb_ext _ _ _ _ _ (fun k => - _)%R (fun k => -1 * vat (z_coefs z) k + 0)%R) by (intros; ring). rewrite (mode_comb_lin _ _ _ _ _ _ (fun _ => 0%R)), mode_comb_zero. ring.
Qed.
(** Errors. *)
Lemma pz_shape wfe amp b n sel x y c d m : (forall b', b = Some b' -> zero_one b') -> 0 < n -> fit amp = Ok (x, y, c, d) -> mask_of amp b sel = Ok m ->
  nr m <> nr wfe \/ nc m <> nc wfe -> pz wfe amp b n sel = Err ValueError.
Proof.
  intros Hb Hn Hf Em S. rewrite (pz_unfold wfe amp b n sel x y c d Hb Hn Hf), Em. cbn [bind]. unfold fit_zernikes.
  replace (same_shape wfe m) with false; [reflexivity|]. symmetry. unfold same_shape. apply andb_false_iff. destruct S; [left|right]; apply Z.eqb_neq; congruence.
Qed.
Lemma pz_fit_fails wfe amp b n sel e : (forall b', b = Some b' -> zero_one b') -> 0 < n -> fit amp = Err e -> pz wfe amp b n sel = Err e.
Proof.
  intros Hb Hn Hf. unfold fit_pupil_zernikes. replace (match b with Some _ => _ | None => true end) with true.
  2:{ symmetry. destruct b as [m|]; [apply all_01, Hb; reflexivity|reflexivity]. }
  rewrite (proj2 (Z.ltb_lt 0 n) Hn). cbn [guard bind]. rewrite Hf. reflexivity.
Qed.
(** A map that is not square cannot be fitted. *)
Lemma pz_oblong wfe amp b n sel : 1 < nr wfe -> 1 < nc wfe -> nr wfe <> nc wfe -> nr wfe <> 1000000 -> forall z, pz wfe amp b n sel <> Ok z.
Proof.
  intros P1 P2 Ne Nm z H. destruct (pz_inv _ _ _ _ _ _ H) as (Hb & Hn & c & Hf). rewrite (pz_unfold wfe amp b n sel _ _ _ _ Hb Hn Hf) in H.
  apply bind_ok in H as (m & Em & H). apply bind_ok in H as (v & Ev & H). apply bind_ok in H as (p & Ep & H).
  assert (Q : nr m = nr wfe /\ nc m = nc wfe /\ (0 < z_diam z)%R).
  { unfold fit_zernikes, guard in Ev. destruct (same_shape wfe m) eqn:Es; [|discriminate]. cbn [bind] in Ev. destruct (0 <? Z.max 3 n); [|discriminate]. cbn [bind] in Ev.
    destruct (Rlt_dec 0 (z_diam z)); [|discriminate]. unfold same_shape in Es. apply andb_true_iff in Es as [A B]; apply Z.eqb_eq in A, B; auto. }
  destruct Q as (S1 & S2 & Hd). unfold residual in Ep.
  destruct (gen_zernikes_modes (map (fun k => k + 1) (zrange 3)) (map v (zrange 3)) (z_x z) (z_y z) (z_diam z) (nr wfe) (fun j => zern_xy j (z_diam z / 2))) as (g & E & R1 & R2 & _); auto; try lia.
  - apply mode_fun_ex; lra.
  - cbn. discriminate.
  - intros j Hj. apply in_map_iff in Hj as (k & <- & Hk). apply in_zrange in Hk. lia.
  - rewrite E in Ep. cbn [bind] in Ep. apply bind_ok in Ep as (t & Et & _). unfold broadcast in Et. rewrite R1, R2, S1, S2, bc_eq in Et. cbn [bind] in Et.
    unfold bc_size in Et. destruct (Z.eqb_spec (nc wfe) (nr wfe)); [lia|]. destruct (Z.eqb_spec (nc wfe) 1); [lia|]. destruct (Z.eqb_spec (nr wfe) 1); [lia|]. discriminate.
Qed.
Lemma pz_oblong_error wfe amp b n sel x y c d : 1 < nr wfe -> 1 < nc wfe -> nr wfe <> nc wfe -> nr wfe <> 1000000 -> 0 < n ->
  fit amp = Ok (x, y, c, d) -> (0 < d)%R -> zero_one b -> nr b = nr wfe -> nc b = nc wfe -> pz wfe amp (Some b) n sel = Err ValueError.
Proof.
  intros P1 P2 Ne Nm Hn Hf Hd Zb S1 S2. rewrite (pz_unfold wfe amp (Some b) n sel x y c d); [|intros m [= <-]; exact Zb|exact Hn|exact Hf].
  cbn [mask_of bind]. unfold fit_zernikes. rewrite (proj2 (same_shape_iff wfe b)) by auto. cbn [guard bind]. rewrite (proj2 (Z.ltb_lt 0 (Z.max 3 n))) by lia. cbn [guard bind].
  destruct (Rlt_dec 0 d); [|lra]. cbn [guard bind]. match goal with |- context [residual wfe b 3 ?w x y d] => set (v := w) end. unfold residual.
  destruct (gen_zernikes_modes (map (fun k => k + 1) (zrange 3)) (map v (zrange 3)) x y d (nr wfe) (fun j => zern_xy j (d / 2))) as (g & E & R1 & R2 & _); auto; try lia.
  - apply mode_fun_ex; lra.
  - cbn. discriminate.
  - intros j Hj. apply in_map_iff in Hj as (k & <- & Hk). apply in_zrange in Hk. lia.
  - rewrite E. cbn [bind]. unfold broadcast. rewrite R1, R2, S1, S2, bc_eq. cbn [bind].
    unfold bc_size. destruct (Z.eqb_spec (nc wfe) (nr wfe)); [lia|]. destruct (Z.eqb_spec (nc wfe) 1); [lia|]. destruct (Z.eqb_spec (nr wfe) 1); [lia|]. reflexivity.
Qed.
End Z.
Lemma pz_value fit lstsq wfe amp b n sel z : is_lstsq_oracle lstsq -> nc wfe = nr wfe -> 0 < nr wfe -> nr wfe <> 1000000 ->
  fit_pupil_zernikes fit lstsq wfe amp b n sel = Ok z ->
  (exists c, fit amp = Ok (z_x z, z_y z, c, z_diam z)) /\ fitted_mask amp b sel (z_mask z) /\ zero_one (z_mask z) /\
  nr (z_mask z) = nr wfe /\ nc (z_mask z) = nc wfe /\ vlen (z_coefs z) = Z.max 3 n /\
  nr (z_res z) = nr wfe /\ nc (z_res z) = nc wfe /\ nr (z_res_ptt z) = nr wfe /\ nc (z_res_ptt z) = nc wfe /\
  forall Zf, is_mode_fun (z_diam z / 2) Zf ->
    (forall r c, in_arr wfe r c -> at2 (z_res z) r c = (at2 wfe r c - at2 (z_mask z) r c * mode_comb (Z.max 3 n) Zf (z_x z) (z_y z) wfe (vat (z_coefs z)) r c)%R) /\
    (forall r c, in_arr wfe r c -> at2 (z_res_ptt z) r c = (at2 wfe r c - at2 (z_mask z) r c * mode_comb 3 Zf (z_x z) (z_y z) wfe (vat (z_coefs z)) r c)%R).
Proof.
  intros O Sq Hp Hm E. destruct (pz_inv _ _ _ _ _ _ _ _ E) as (_ & _ & F). destruct (pz_ok fit lstsq wfe amp b n sel z Sq Hp Hm E) as (M & Z1 & M1 & M2 & _ & V & R1 & R2 & P1 & P2 & _ & K).
  split; [exact F|]. split; [exact (mask_fitted _ _ _ _ M)|]. repeat (split; [assumption|]). exact K.
Qed.
Lemma pz_defined fit lstsq wfe amp n x y c d : nc wfe = nr wfe -> 0 < nr wfe -> nr wfe <> 1000000 -> 0 < n ->
  fit amp = Ok (x, y, c, d) -> (0 < d)%R ->
  (forall b sel, zero_one b -> nr b = nr wfe -> nc b = nc wfe -> exists z, fit_pupil_zernikes fit lstsq wfe amp (Some b) n sel = Ok z) /\
  (forall t, ampthresh amp 21 = Ok t -> nr t = nr wfe -> nc t = nc wfe -> exists z, fit_pupil_zernikes fit lstsq wfe amp None n None = Ok z).
Proof.
  intros Sq Hp Hm Hn F Hd. split.
  - intros b sel Z1 B1 B2. apply (pz_total fit lstsq wfe amp (Some b) n sel x y c d b); auto. intros b' [= <-]. exact Z1.
  - intros t Et T1 T2. apply (pz_total fit lstsq wfe amp None n None x y c d (amap of_bool t)); auto; [intros b' [=]|]. unfold mask_of. rewrite Et. reflexivity.
Qed.
Lemma pz_rejections fit lstsq wfe amp n sel :
  (forall b, n <= 0 -> fit_pupil_zernikes fit lstsq wfe amp b n sel = Err TypeError) /\
  (forall b, (exists r c, in_arr b r c /\ at2 b r c <> 0%R /\ at2 b r c <> 1%R) -> fit_pupil_zernikes fit lstsq wfe amp (Some b) n sel = Err TypeError) /\
  (forall b e, zero_one b -> 0 < n -> fit amp = Err e -> fit_pupil_zernikes fit lstsq wfe amp (Some b) n sel = Err e) /\
  (forall e, 0 < n -> fit amp = Err e -> fit_pupil_zernikes fit lstsq wfe amp None n sel = Err e) /\
  (forall b r, zero_one b -> 0 < n -> fit amp = Ok r -> nr b <> nr wfe \/ nc b <> nc wfe ->
     fit_pupil_zernikes fit lstsq wfe amp (Some b) n sel = Err ValueError).
Proof.
  split; [intros; apply pz_rejects_max; assumption|]. split; [intros; apply pz_rejects_mask; assumption|].
  split; [intros b e Z1 Hn F; apply pz_fit_fails; auto; intros b' [= <-]; exact Z1|].
  split; [intros e Hn F; apply pz_fit_fails; auto; intros b' [=]|].
  intros b [[[x y] c] d] Z1 Hn F S. apply (pz_shape fit lstsq wfe amp (Some b) n sel x y c d b); auto. intros b' [= <-]. exact Z1.
Qed.
(** The default structure: a pixel and its four neighbours. *)
Lemma cross k l : on pupil_selem (k, l) <-> Z.abs (k - 1) + Z.abs (l - 1) <= 1.
Proof.
  assert (R : nr pupil_selem = 3 /\ nc pupil_selem = 3) by (split; reflexivity). destruct R as [R1 R2].
  assert (H3 : forall z, 0 <= z < 3 -> z = 0 \/ z = 1 \/ z = 2) by (intros; lia). split.
  - intros [[K L] V]. cbn [fst snd] in *. rewrite R1 in K. rewrite R2 in L.
    destruct (H3 k K) as [-> | [-> | ->]], (H3 l L) as [-> | [-> | ->]]; cbn in V |- *; try discriminate; lia.
  - intros H. assert (0 <= k < 3 /\ 0 <= l < 3) as [K L] by lia. split; [split; cbn [fst snd]; lia|]. cbn [fst snd].
    destruct (H3 k K) as [-> | [-> | ->]], (H3 l L) as [-> | [-> | ->]]; cbn in H |- *; auto; lia.
Qed.
Lemma pz_default_mask fit lstsq wfe amp n z : is_lstsq_oracle lstsq -> nc wfe = nr wfe -> 0 < nr wfe -> nr wfe <> 1000000 ->
  fit_pupil_zernikes fit lstsq wfe amp None n (Some pupil_selem) = Ok z ->
  exists t, ampthresh amp 21 = Ok t /\ nr t = nr wfe /\ nc t = nc wfe /\ forall r c, in_arr wfe r c ->
    (at2 (z_mask z) r c = 1%R <-> forall a b, Z.abs (a - r) + Z.abs (b - c) <= 1 -> in_arr t a b /\ at2 t a b = true) /\
    (at2 (z_mask z) r c = 0%R \/ at2 (z_mask z) r c = 1%R).
Proof.
  intros O Sq Hp Hm E. destruct (pz_value _ _ _ _ _ _ _ _ O Sq Hp Hm E) as (_ & (t & e & T & (E1 & E2 & Ed) & M) & _ & S1 & S2 & _).
  rewrite M in S1, S2. change (nr (zero_one_of e)) with (nr e) in S1. change (nc (zero_one_of e)) with (nc e) in S2.
  exists t. split; [exact T|]. split; [congruence|]. split; [congruence|]. intros r c [Ir Ic].
  assert (I : in_arr t r c) by (split; lia). specialize (Ed r c I).
  change (nr pupil_selem / 2) with 1 in Ed. change (nc pupil_selem / 2) with 1 in Ed.
  assert (V : at2 (z_mask z) r c = if at2 e r c then 1%R else 0%R) by (rewrite M; reflexivity).
  rewrite V. split; [|destruct (at2 e r c); auto].
  assert (Q : (at2 e r c = true) <-> (forall a b, Z.abs (a - r) + Z.abs (b - c) <= 1 -> in_arr t a b /\ at2 t a b = true)).
  { rewrite Ed. split.
    - intros H a b D. specialize (H (a - r + 1) (b - c + 1)). rewrite cross in H. specialize (H ltac:(lia)).
      replace (r + (a - r + 1) - 1) with a in H by lia. replace (c + (b - c + 1) - 1) with b in H by lia. exact H.
    - intros H k l K. apply cross in K. apply (H (r + k - 1) (c + l - 1)). lia. }
  rewrite <- Q. destruct (at2 e r c); split; intros; auto; try lra; discriminate.
Qed.
