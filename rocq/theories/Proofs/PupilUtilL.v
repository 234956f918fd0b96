(** Lateral offsets. *)
From Coq Require Import ZArith Bool List Reals Lra Lia String FunctionalExtensionality.
From Flocq Require Import Core.
From Coquelicot Require Import Complex.
From Verif.Base Require Import Py Arr Vec Sums CSum Fft Lstsq.
From Verif.Model Require Import Math Noll Fits Shapes PadCrop PsfFit PupilUtil.
From Verif.Spec Require Import PsfFitSpec FitsSpec PupilUtilSpec.
From Verif.Proofs Require Import PadCropP FitsP PsfFitP PupilUtilP QuadFitP.
Import ListNotations.
Open Scope Z_scope.

Lemma Cmod_sqr z : (Cmod z ^ 2 = Cmod2 z)%R.
Proof.
  unfold Cmod, Cmod2. rewrite <- Rsqr_pow2, Rsqr_sqrt; [cbn; ring|]. cbn. nra.
Qed.
Lemma band_in N n i : in_band N (i - n / 2) = (0 <=? i - n / 2 + N / 2) && (i - n / 2 + N / 2 <? N).
Proof.
  unfold in_band. destruct (Z.leb_spec (- (N / 2)) (i - n / 2)), (Z.leb_spec 0 (i - n / 2 + N / 2)),
    (Z.ltb_spec (i - n / 2) (N - N / 2)), (Z.ltb_spec (i - n / 2 + N / 2) N); auto; lia.
Qed.
Lemma cdft2_spectrum N f k l : (cdft2 (-1) N N (fun i j => RtoC (f i j)) (k + N / 2) (l + N / 2) / RtoC (IZR N))%C = spectrum N f k l.
Proof.
  unfold spectrum. f_equal. rewrite cdft2_sum. apply csum2_ext. intros p q _ _. f_equal.
  unfold w. rewrite <- cis_add. f_equal. rewrite !Z.add_simpl_r, !mult_IZR.
  unfold Rdiv. ring.
Qed.
Lemma focal_ok a N nCrop : 0 < N -> 0 < nCrop -> nr a = N -> nc a = N ->
  exists E, focal a N nCrop = Ok E /\ nr E = nCrop /\ nc E = nCrop /\
  forall i j, 0 <= i < nCrop -> 0 <= j < nCrop -> at2 E i j =
    if in_band N (i - nCrop / 2) && in_band N (j - nCrop / 2)
    then spectrum N (at2 a) (i - nCrop / 2) (j - nCrop / 2) else RtoC 0.
Proof.
  intros HN HC Hr Hc. unfold focal.
  destruct (fftshift_fft2 (amap RtoC a)) as (o & -> & Sr & Sc & V); [cbn; lia..|]. cbn [bind].
  set (g := amap _ (fftshift o)).
  assert (Gr : nr g = N) by (unfold g; cbn [amap nr] in *; lia).
  assert (Gc : nc g = N) by (unfold g; cbn [amap nc] in *; lia).
  destruct (pad_crop_ok g nCrop nCrop (RtoC 0)) as (E & -> & Er & Ec & Ev); auto.
  { split; lia. }
  exists E. split; [auto|]. split; [auto|]. split; [auto|]. intros i j Hi Hj. rewrite Ev by auto.
  unfold in_arrb. rewrite Gr, Gc. rewrite !band_in.
  set (bi := (0 <=? i - nCrop / 2 + N / 2) && (i - nCrop / 2 + N / 2 <? N)).
  rewrite <- (andb_assoc bi). 
  destruct (bi && ((0 <=? j - nCrop / 2 + N / 2) && (j - nCrop / 2 + N / 2 <? N))) eqn:B; [|reflexivity].
  unfold g. cbn [amap at2]. rewrite V. cbn [amap nr nc at2]. rewrite Hr, Hc. apply cdft2_spectrum.
Qed.
Lemma xi_at N k : 0 < N -> xi N (k + N / 2) = ((IZR k - IZR (N mod 2) / 2) / IZR N)%R.
Proof.
  intros HN. unfold xi. f_equal. rewrite plus_IZR.
  assert (E : IZR N = (2 * IZR (N / 2) + IZR (N mod 2))%R).
  { rewrite <- mult_IZR, <- plus_IZR. f_equal. apply Z.div_mod. lia. }
  lra.
Qed.
Lemma freqs_ok N nCrop : 0 < N -> 0 < nCrop -> exists X Y, freqs N nCrop = Ok (X, Y) /\
  forall i j, 0 <= i < nCrop -> 0 <= j < nCrop -> in_band N (i - nCrop / 2) && in_band N (j - nCrop / 2) = true ->
    at2 X i j = ((IZR (j - nCrop / 2) - IZR (N mod 2) / 2) / IZR N)%R /\
    at2 Y i j = ((IZR (i - nCrop / 2) - IZR (N mod 2) / 2) / IZR N)%R.
Proof.
  intros HN HC. unfold freqs.
  set (A := Arr N N (fun _ j => xi N j)). set (B := Arr N N (fun i _ => xi N i)).
  destruct (pad_crop_ok A nCrop nCrop 0%R) as (X & -> & _ & _ & Xv); [split; cbn; lia|auto|auto|]. cbn [bind].
  destruct (pad_crop_ok B nCrop nCrop 0%R) as (Y & -> & _ & _ & Yv); [split; cbn; lia|auto|auto|]. cbn [bind].
  exists X, Y. split; [auto|]. intros i j Hi Hj Bd. rewrite Xv, Yv by auto. rewrite !band_in in Bd.
  unfold in_arrb, A, B. cbn [nr nc at2].
  rewrite <- andb_assoc in Bd. rewrite <- !andb_assoc. rewrite Bd. rewrite !xi_at by auto. auto.
Qed.
Lemma Csub_00 (z : C) : (RtoC 0 * z - RtoC 0 = RtoC 0)%C. Proof. ring. Qed.
Lemma cost_misfit E Eref X Y N nCrop (fm fr : Z -> Z -> R) dx dy : nr E = nCrop -> nc E = nCrop ->
  (forall i j, 0 <= i < nCrop -> 0 <= j < nCrop -> at2 E i j =
    if in_band N (i - nCrop / 2) && in_band N (j - nCrop / 2) then spectrum N fm (i - nCrop / 2) (j - nCrop / 2) else RtoC 0) ->
  (forall i j, 0 <= i < nCrop -> 0 <= j < nCrop -> at2 Eref i j =
    if in_band N (i - nCrop / 2) && in_band N (j - nCrop / 2) then spectrum N fr (i - nCrop / 2) (j - nCrop / 2) else RtoC 0) ->
  (forall i j, 0 <= i < nCrop -> 0 <= j < nCrop -> in_band N (i - nCrop / 2) && in_band N (j - nCrop / 2) = true ->
    at2 X i j = ((IZR (j - nCrop / 2) - IZR (N mod 2) / 2) / IZR N)%R /\
    at2 Y i j = ((IZR (i - nCrop / 2) - IZR (N mod 2) / 2) / IZR N)%R) ->
  lateral_cost E Eref X Y dx dy = misfit N nCrop fm fr dx dy.
Proof.
  intros Er Ec HE HR HX. unfold lateral_cost, misfit. rewrite Er, Ec. apply rsum2_ext. intros i j Hi Hj.
  rewrite Cmod_sqr, HE, HR by auto. specialize (HX i j Hi Hj).
  destruct (in_band N (i - nCrop / 2) && in_band N (j - nCrop / 2)).
  - destruct (HX eq_refl) as [-> ->]. do 3 f_equal. f_equal. unfold Rdiv. ring.
  - rewrite Csub_00. apply Cmod2_0.
Qed.
Lemma delta_at n d c i : 0 <= i < n -> vat (delta_vec n d c) i = trial n d c i.
Proof.
  intros H. unfold delta_vec, trial, linspace. cbn [vat]. destruct (Z.eqb_spec n 1) as [->|N].
  - replace i with 0 by lia. lra.
  - assert (IZR n - 1 <> 0)%R by (intros Q; apply N, eq_IZR; lra). field. auto.
Qed.
Lemma argmin_ok n (f : Z -> Z -> R) : 0 < n -> exists b, argmin2 (Arr n n f) = Ok b /\ first_max (fun i j => - f i j)%R n n (fst b) (snd b).
Proof.
  intros Hn. unfold argmin2. destruct (argmax2_def (amap Ropp (Arr n n f))) as [b E]; [cbn; auto..|].
  exists b. split; auto. apply argmax2_ok in E. exact E.
Qed.
Section Lateral.
Variable lstsq : lstsq_fun.
Hypothesis oracle : is_lstsq_oracle lstsq.

Section Fit.
Variables (m : R -> R -> R) (n : Z) (d x0 y0 : R).
Hypothesis Hn : 0 < n.
Let vx := delta_vec n d x0.
Let vy := delta_vec n d y0.
Let costMat := Arr n n (fun iy ix => m (vat vx ix) (vat vy iy)).
Lemma vx_ok : vlen vx = n /\ forall i, 0 <= i < n -> vat vx i = trial n d x0 i.
Proof. split; [reflexivity|]. intros i Hi. apply delta_at, Hi. Qed.
Lemma vy_ok : vlen vy = n /\ forall i, 0 <= i < n -> vat vy i = trial n d y0 i.
Proof. split; [reflexivity|]. intros i Hi. apply delta_at, Hi. Qed.
Lemma costMat_ok : nr costMat = n /\ nc costMat = n /\
  forall iy ix, 0 <= iy < n -> 0 <= ix < n -> at2 costMat iy ix = m (trial n d x0 ix) (trial n d y0 iy).
Proof.
  split; [reflexivity|]. split; [reflexivity|]. intros iy ix Hi Hj. unfold costMat. cbn [at2]. rewrite (proj2 vx_ok), (proj2 vy_ok) by auto. auto.
Qed.
Lemma fit_shift x y : find_optimum_2d lstsq vx vy costMat (afull n n 1%R) = Ok (x, y) -> fitted_shift m n d x0 y0 x y.
Proof. apply QuadFitP.fit_shift; auto using vx_ok, vy_ok, costMat_ok. Qed.
Hypothesis Hn2 : 2 <= n.
Hypothesis Hd : d <> 0%R.
Hypothesis Hsym : forall i j, 0 <= i < n -> 0 <= j < n ->
  m (trial n d x0 j) (trial n d y0 i) = m (trial n d x0 (n - 1 - j)) (trial n d y0 (n - 1 - i)).
Lemma fit_symmetric : find_optimum_2d lstsq vx vy costMat (afull n n 1%R) = Err (Custom "QuadraticException") \/
  find_optimum_2d lstsq vx vy costMat (afull n n 1%R) = Ok (x0, y0).
Proof. apply (QuadFitP.fit_symmetric lstsq oracle m n d x0 y0); auto using vx_ok, vy_ok, costMat_ok. Qed.
End Fit.

Lemma chain_ok m n nIter : 0 < n -> forall j k x0 y0 dp s, 2 <= k ->
  lateral_loop lstsq m n nIter k j (x0, y0, dp) = Ok s -> fit_chain m n j (dp / 2) x0 y0 (fst (fst s)) (snd (fst s)).
Proof.
  intros Hn. induction j as [|j IH]; intros k x0 y0 dp s Hk H; cbn [lateral_loop] in H.
  - injection H as <-. constructor.
  - unfold lateral_step in H. destruct (Z.ltb_spec 1 k) as [_|]; [|lia]. destruct (Z.eqb_spec k 0) as [|_]; [lia|]. cbn [andb] in H.
    destruct (find_optimum_2d _ _ _ _ _) as [[x1 y1]|e] eqn:E; [|discriminate]. cbn [bind fst snd] in H.
    apply fit_shift in E; auto. econstructor; [exact E|]. apply (IH (k + 1)); [lia|exact H].
Qed.
Lemma loop_search m n nIter d s : 0 < n -> 0 < nIter ->
  lateral_loop lstsq m n nIter 0 (Z.to_nat nIter) (0, 0, d)%R = Ok s -> lateral_search m n nIter d (fst (fst s)) (snd (fst s)).
Proof.
  intros Hn Hi H. unfold lateral_search. destruct (Z.eqb_spec nIter 1) as [->|N1].
  - change (Z.to_nat 1) with 1%nat in H. cbn [lateral_loop] in H. unfold lateral_step in H. cbn [Z.ltb Z.compare Z.eqb andb Pos.compare Pos.compare_cont] in H.
    destruct (find_optimum_2d _ _ _ _ _) as [[x1 y1]|e] eqn:E; [|discriminate]. cbn [bind fst snd] in H. injection H as <-.
    apply fit_shift in E; auto.
  - replace (Z.to_nat nIter) with (S (Z.to_nat (nIter - 1))) in H by lia. cbn [lateral_loop] in H.
    unfold lateral_step in H at 1. destruct (Z.ltb_spec 1 nIter); [|lia]. cbn [Z.ltb Z.compare Z.eqb andb] in H.
    destruct (argmin_ok n (fun iy ix => m (vat (delta_vec n d 0) ix) (vat (delta_vec n d 0) iy)) Hn) as (b & Eb & B).
    rewrite Eb in H. cbn [bind] in H. pose proof B as (Bi & Bj & _). rewrite !delta_at in H by auto.
    exists (trial n d 0 (snd b)), (trial n d 0 (fst b)). split.
    + exists (fst b), (snd b). split; [|auto]. revert B. apply first_max_ext. intros i j Hi' Hj'. rewrite !delta_at by auto. auto.
    + replace (Z.to_nat (nIter - 1)) with (S (Z.to_nat (nIter - 2))) in * by lia. cbn [lateral_loop] in H.
      unfold lateral_step in H at 1. cbn [Z.add Z.ltb Z.compare Z.eqb andb Pos.compare Pos.compare_cont] in H.
      destruct (find_optimum_2d _ _ _ _ _) as [[x1 y1]|e] eqn:E; [|discriminate]. cbn [bind fst snd] in H.
      apply fit_shift in E; auto. econstructor; [exact E|]. eapply chain_ok; [auto| |exact H]. lia.
Qed.
Lemma loop_symmetric m n nIter x0 y0 : 2 <= n ->
  (forall u v, m (x0 + u)%R (y0 + v)%R = m (x0 - u)%R (y0 - v)%R) ->
  forall j k dp, 1 <= k -> dp <> 0%R ->
  lateral_loop lstsq m n nIter k j (x0, y0, dp) = Err (Custom "QuadraticException") \/
  exists dp', lateral_loop lstsq m n nIter k j (x0, y0, dp) = Ok (x0, y0, dp').
Proof.
  intros Hn Hs. induction j as [|j IH]; intros k dp Hk Hd; cbn [lateral_loop]; [right; eauto|].
  unfold lateral_step. destruct (Z.eqb_spec k 0) as [|_]; [lia|]. cbn [andb].
  set (d := if 1 <? k then (dp / 2)%R else dp). assert (d <> 0)%R by (unfold d; destruct (1 <? k); lra).
  destruct (fit_symmetric m n d x0 y0 ltac:(lia)) as [E|E]; auto.
  - intros i l Hi Hl. rewrite !(trial_flip n d) by lia. unfold trial.
    rewrite Hs. f_equal; ring.
  - rewrite E. left. reflexivity.
  - rewrite E. cbn [bind fst snd]. apply IH; auto; lia.
Qed.
End Lateral.

(** ** The misfit of a shifted image *)
Lemma csum2_roll (f : Z -> Z -> C) n m s t : 0 < n -> 0 < m ->
  csum2 (fun i j => f ((i + s) mod n) ((j + t) mod m)) n m = csum2 f n m.
Proof.
  intros Hn Hm. unfold csum2. rewrite <- (csum_roll (fun i => csum (fun j => f i j) m) n s Hn).
  apply csum_ext. intros i _. apply (csum_roll (fun j => f ((i + s) mod n) j) m t Hm).
Qed.
Lemma spectrum_shift N fr dy dx fm k l : 0 < N -> window_shift N fr dy dx fm ->
  spectrum N fm k l = (spectrum N fr k l * cis (- (2 * PI * ((IZR dy * IZR k + IZR dx * IZR l) / IZR N))))%C.
Proof.
  intros HN H. unfold spectrum.
  set (K := fun a b : Z => cis (- (2 * PI * ((IZR a * IZR k + IZR b * IZR l) / IZR N)))).
  assert (Kw : forall a b, K a b = (w N (- (a * k))%Z * w N (- (b * l))%Z)%C).
  { intros a b. unfold K, w. rewrite <- cis_add. f_equal. rewrite !opp_IZR, !mult_IZR. unfold Rdiv. ring. }
  change (cis (- (2 * PI * ((IZR dy * IZR k + IZR dx * IZR l) / IZR N)))) with (K dy dx).
  transitivity (csum2 (fun p q => RtoC (fr p q) * K (p - N / 2)%Z (q - N / 2)%Z * K dy dx)%C N N / RtoC (IZR N))%C.
  2:{ rewrite csum2_scal_r. unfold Cdiv. change (fun p q => RtoC (fr p q) * K (p - N / 2)%Z (q - N / 2)%Z)%C with
        (fun p q => RtoC (fr p q) * cis (- (2 * PI * ((IZR (p - N / 2) * IZR k + IZR (q - N / 2) * IZR l) / IZR N)))%R)%C. ring. }
  f_equal.
  rewrite <- (csum2_roll (fun p q => RtoC (fr p q) * K (p - N / 2)%Z (q - N / 2)%Z * K dy dx)%C N N (- dy) (- dx)) by auto.
  apply csum2_ext. intros p q Hp Hq. rewrite H by auto.
  change (cis (- (2 * PI * ((IZR (p - N / 2) * IZR k + IZR (q - N / 2) * IZR l) / IZR N)))) with (K (p - N / 2)%Z (q - N / 2)%Z).
  rewrite <- Cmult_assoc. rewrite !Z.add_opp_r. f_equal. rewrite !Kw.
  assert (G : forall p d k, w N (- ((p - N / 2) * k)) = (w N (- (((p - d) mod N - N / 2) * k))%Z * w N (- (d * k))%Z)%C).
  { intros p0 d0 k0. rewrite <- w_add. pose proof (Z.div_mod (p0 - d0) N ltac:(lia)) as D.
    apply (w_congr _ _ _ (- ((p0 - d0) / N * k0))); [lia|].
    replace ((p0 - d0) mod N) with (p0 - d0 - N * ((p0 - d0) / N)) by lia. ring. }
  rewrite (G p dy k), (G q dx l). ring.
Qed.
Definition mismatch (N nCrop : Z) (fr : Z -> Z -> R) (u v : R) : R :=
  rsum2 (fun a b =>
    let k := a - nCrop / 2 in let l := b - nCrop / 2 in
    if in_band N k && in_band N l then
      (Cmod2 (spectrum N fr k l) * (2 - 2 * cos (2 * PI * ((u * IZR l + v * IZR k) / IZR N))))%R
    else 0%R) nCrop nCrop.
Lemma Cmod2_cis_sub t : Cmod2 (cis t - RtoC 1)%C = (2 - 2 * cos t)%R.
Proof.
  unfold Cmod2, cis. cbn. pose proof (sin2_cos2 t) as E. unfold Rsqr in E. lra.
Qed.
Lemma misfit_shift N nCrop fr dy dx fm x y : 0 < N -> N mod 2 = 0 -> window_shift N fr dy dx fm ->
  misfit N nCrop fm fr x y = mismatch N nCrop fr (x - IZR dx) (y - IZR dy).
Proof.
  intros HN He H. unfold misfit, mismatch. rewrite He. apply rsum2_ext. intros a b _ _. cbv zeta.
  set (k := a - nCrop / 2). set (l := b - nCrop / 2). destruct (in_band N k && in_band N l); [|auto].
  rewrite (spectrum_shift N fr dy dx fm k l HN H).
  replace (spectrum N fr k l * cis (- (2 * PI * ((IZR dy * IZR k + IZR dx * IZR l) / IZR N))) *
     cis (2 * PI * ((x * (IZR l - 0 / 2) + y * (IZR k - 0 / 2)) / IZR N)) - spectrum N fr k l)%C
    with (spectrum N fr k l * (cis (2 * PI * (((x - IZR dx) * IZR l + (y - IZR dy) * IZR k) / IZR N))%R - RtoC 1))%C.
  - rewrite Cmod2_mult, Cmod2_cis_sub. auto.
  - replace (2 * PI * (((x - IZR dx) * IZR l + (y - IZR dy) * IZR k) / IZR N))%R with
      (- (2 * PI * ((IZR dy * IZR k + IZR dx * IZR l) / IZR N)) +
       2 * PI * ((x * (IZR l - 0 / 2) + y * (IZR k - 0 / 2)) / IZR N))%R by (unfold Rdiv; ring).
    rewrite cis_add. ring.
Qed.
Lemma mismatch_even N nCrop fr u v : mismatch N nCrop fr (- u) (- v) = mismatch N nCrop fr u v.
Proof.
  unfold mismatch. apply rsum2_ext. intros a b _ _. cbv zeta. destruct (_ && _); auto.
  do 3 f_equal. rewrite <- cos_neg. f_equal. unfold Rdiv. ring.
Qed.
Lemma two_minus_cos t : (0 <= 2 - 2 * cos t)%R.
Proof. pose proof (COS_bound t). lra. Qed.
Lemma mismatch_nonneg N nCrop fr u v : (0 <= mismatch N nCrop fr u v)%R.
Proof.
  apply rsum2_nonneg. intros a b _ _. cbv zeta. destruct (_ && _); [|lra].
  apply Rmult_le_pos; [apply Cmod2_nonneg|apply two_minus_cos].
Qed.
Lemma mismatch_0 N nCrop fr : mismatch N nCrop fr 0 0 = 0%R.
Proof.
  apply rsum2_all_zero. intros a b _ _. cbv zeta. destruct (_ && _); [|auto].
  replace (2 * PI * ((0 * IZR (b - nCrop / 2) + 0 * IZR (a - nCrop / 2)) / IZR N))%R with 0%R by (unfold Rdiv; ring).
  rewrite cos_0. ring.
Qed.
Lemma full_turn N u s : 0 < N -> (s = 1 \/ s = -1)%R -> (2 - 2 * cos (2 * PI * ((u * s) / IZR N)) = 0)%R -> (Rabs u < IZR N)%R -> u = 0%R.
Proof.
  intros HN Hs H B. rewrite <- Cmod2_cis_sub in H. apply Cmod2_zero in H.
  assert (E : cis (2 * PI * (u * s / IZR N)) = RtoC 1).
  { replace (cis (2 * PI * (u * s / IZR N))) with ((cis (2 * PI * (u * s / IZR N))%R - RtoC 1) + RtoC 1)%C by ring. rewrite H. ring. }
  apply cis_eq_1 in E as [k E].
  assert (HNr : (0 < IZR N)%R) by (apply IZR_lt; auto).
  pose proof PI_RGT_0.
  assert (Q : (u * s = IZR k * IZR N)%R).
  { assert (u * s / IZR N = IZR k)%R by (apply (Rmult_eq_reg_l (2 * PI)); lra). rewrite <- H1. field. lra. }
  assert (k = 0).
  { destruct (Z.eq_dec k 0) as [|Nk]; auto. exfalso.
    assert (1 <= Rabs (IZR k))%R by (rewrite <- abs_IZR; apply IZR_le; lia).
    assert (Rabs (u * s) = Rabs u)%R by (rewrite Rabs_mult; destruct Hs as [->| ->]; [rewrite Rabs_R1|change (-1)%R with (Ropp 1); rewrite Rabs_Ropp, Rabs_R1]; ring).
    rewrite <- H2, Q, Rabs_mult, (Rabs_pos_eq (IZR N)) in B by lra. nra. }
  subst k. rewrite Rmult_0_l in Q. destruct Hs as [->| ->]; lra.
Qed.
Lemma mismatch_zero N nCrop fr u v : 2 <= N -> 2 <= nCrop -> spectrum N fr 0 (-1) <> RtoC 0 -> spectrum N fr (-1) 0 <> RtoC 0 ->
  (Rabs u < IZR N)%R -> (Rabs v < IZR N)%R -> mismatch N nCrop fr u v = 0%R -> u = 0%R /\ v = 0%R.
Proof.
  intros HN HC Fx Fy Bu Bv H.
  assert (D : 1 <= nCrop / 2 < nCrop).
  { pose proof (Z.div_mod nCrop 2). pose proof (Z.mod_pos_bound nCrop 2). lia. }
  assert (DN : 1 <= N / 2 < N).
  { pose proof (Z.div_mod N 2). pose proof (Z.mod_pos_bound N 2). lia. }
  unfold mismatch in H.
  match type of H with rsum2 ?g _ _ = _ => assert (NN : forall a b, 0 <= a < nCrop -> 0 <= b < nCrop -> (0 <= g a b)%R) end.
  { intros a b _ _. cbv beta zeta. destruct (_ && _); [|lra]. apply Rmult_le_pos; [apply Cmod2_nonneg|apply two_minus_cos]. }
  pose proof (rsum2_nonneg_zero _ _ _ NN H) as Z.
  assert (B0 : in_band N 0 = true).
  { unfold in_band. apply andb_true_intro. split; [apply Z.leb_le|apply Z.ltb_lt]; lia. }
  assert (B1 : in_band N (-1) = true).
  { unfold in_band. apply andb_true_intro. split; [apply Z.leb_le|apply Z.ltb_lt]; lia. }
  assert (P : forall f : C, f <> RtoC 0 -> forall t, (Cmod2 f * t = 0)%R -> t = 0%R).
  { intros f Nf t E. apply Rmult_integral in E as [E|]; auto. apply Cmod2_zero in E. contradiction. }
  split.
  - pose proof (Z (nCrop / 2) (nCrop / 2 - 1) ltac:(lia) ltac:(lia)) as E. cbv beta zeta in E.
    replace (nCrop / 2 - nCrop / 2) with 0 in E by lia. replace (nCrop / 2 - 1 - nCrop / 2) with (-1) in E by lia.
    rewrite B0, B1 in E. cbn [andb] in E. apply P in E; auto.
    apply (full_turn N u (-1)); [lia|auto| |auto]. replace (u * -1)%R with (u * -1 + v * 0)%R by ring. exact E.
  - pose proof (Z (nCrop / 2 - 1) (nCrop / 2) ltac:(lia) ltac:(lia)) as E. cbv beta zeta in E.
    replace (nCrop / 2 - nCrop / 2) with 0 in E by lia. replace (nCrop / 2 - 1 - nCrop / 2) with (-1) in E by lia.
    rewrite B0, B1 in E. cbn [andb] in E. apply P in E; auto.
    apply (full_turn N v (-1)); [lia|auto| |auto]. replace (v * -1)%R with (u * 0 + v * -1)%R by ring. exact E.
Qed.

(** ** The whole search *)
Section Whole.
Variable lstsq : lstsq_fun.
Hypothesis oracle : is_lstsq_oracle lstsq.
Lemma lateral_unfold fuel rnd meas ref diamEst n d N nCrop nIter useCoarse xCoarse yCoarse xc yc :
  (0 < diamEst)%R -> 0 < n -> (0 < d)%R -> 0 < N -> 0 < nCrop -> 0 < nIter -> wf ref -> 0 < nr meas -> 0 < nc meas ->
  starts fuel rnd meas diamEst useCoarse xCoarse yCoarse xc yc ->
  compute_lateral_offsets lstsq fuel rnd meas ref diamEst n d N nCrop nIter useCoarse xCoarse yCoarse =
  Some (do s <- lateral_loop lstsq (misfit N nCrop (window meas N yc xc) (window ref N 0 0)) n nIter 0 (Z.to_nat nIter) (0, 0, d)%R;
        Ok (IZR yc + snd (fst s), IZR xc + fst (fst s))%R).
Proof.
  intros HE Hn Hd HN HC Hi Wr Wm1 Wm2 S0. unfold compute_lateral_offsets.
  rewrite (proj2 (Rltb_iff 0 diamEst) HE), (proj2 (Rltb_iff 0 d) Hd), !(proj2 (Z.ltb_lt 0 _)) by auto. cbn [negb].
  replace (if useCoarse then _ else _) with (Some (Ok (if useCoarse then (IZR xc, IZR yc) else (xCoarse, yCoarse)))).
  2:{ destruct useCoarse; auto. cbn in S0. rewrite S0. auto. }
  replace (if useCoarse then (IZR xc, IZR yc) else (xCoarse, yCoarse)) with
    (fst (if useCoarse then (IZR xc, IZR yc) else (xCoarse, yCoarse)), snd (if useCoarse then (IZR xc, IZR yc) else (xCoarse, yCoarse)))
    by (destruct useCoarse; auto).
  cbv zeta.
  replace (ZnearestE (fst (if useCoarse then (IZR xc, IZR yc) else (xCoarse, yCoarse)))) with xc
    by (destruct useCoarse; cbn; [rewrite ZnearestE_IZR; auto|destruct S0; auto]).
  replace (ZnearestE (snd (if useCoarse then (IZR xc, IZR yc) else (xCoarse, yCoarse)))) with yc
    by (destruct useCoarse; cbn; [rewrite ZnearestE_IZR; auto|destruct S0; auto]).
  destruct (pad_crop_ok ref N N 0%R Wr HN HN) as (rp & -> & Rr & Rc & Rv). cbn [bind].
  destruct (focal_ok rp N nCrop HN HC Rr Rc) as (Er & -> & _ & _ & Erv). cbn [bind].
  destruct (offcenter_crop_ok 0%R meas N (IZR (nr meas / 2 + yc)) (IZR (nc meas / 2 + xc)) Wm1 Wm2 HN) as (rc & -> & Cr & Cc & Cv). cbn [bind].
  destruct (focal_ok rc N nCrop HN HC Cr Cc) as (E & -> & E1 & E2 & Ev). cbn [bind].
  destruct (freqs_ok N nCrop HN HC) as (X & Y & -> & XY). cbn [bind fst snd].
  rewrite !ZnearestE_IZR in Cv.
  assert (Sp : forall f g k l, (forall p q, 0 <= p < N -> 0 <= q < N -> f p q = g p q) -> spectrum N f k l = spectrum N g k l).
  { intros f g k l Hf. unfold spectrum. f_equal. apply csum2_ext. intros p q Hp Hq. rewrite Hf; auto. }
  assert (Sm : forall k l, spectrum N (at2 rc) k l = spectrum N (window meas N yc xc) k l).
  { intros k l. apply Sp. intros p q Hp Hq. rewrite Cv by auto. cbv zeta. unfold window.
    replace (nr meas / 2 + yc - N / 2 + p) with (nr meas / 2 + yc + (p - N / 2)) by ring.
    replace (nc meas / 2 + xc - N / 2 + q) with (nc meas / 2 + xc + (q - N / 2)) by ring. auto. }
  assert (Sr : forall k l, spectrum N (at2 rp) k l = spectrum N (window ref N 0 0) k l).
  { intros k l. apply Sp. intros p q Hp Hq. rewrite Rv by auto. unfold window.
    replace (p - N / 2 + nr ref / 2) with (nr ref / 2 + 0 + (p - N / 2)) by ring.
    replace (q - N / 2 + nc ref / 2) with (nc ref / 2 + 0 + (q - N / 2)) by ring. auto. }
  replace (lateral_cost E Er X Y) with (misfit N nCrop (window meas N yc xc) (window ref N 0 0)); auto.
  apply functional_extensionality. intro dx. apply functional_extensionality. intro dy. symmetry.
  apply cost_misfit; auto.
  - intros i j Hi' Hj'. rewrite Ev by auto. rewrite Sm. auto.
  - intros i j Hi' Hj'. rewrite Erv by auto. rewrite Sr. auto.
Qed.
Lemma lateral_ok fuel rnd meas ref diamEst n d N nCrop nIter useCoarse xCoarse yCoarse xc yc y x :
  wf ref -> 0 < nr meas -> 0 < nc meas -> starts fuel rnd meas diamEst useCoarse xCoarse yCoarse xc yc ->
  compute_lateral_offsets lstsq fuel rnd meas ref diamEst n d N nCrop nIter useCoarse xCoarse yCoarse = Some (Ok (y, x)) ->
  exists sx sy, lateral_search (misfit N nCrop (window meas N yc xc) (window ref N 0 0)) n nIter d sx sy /\
    y = (IZR yc + sy)%R /\ x = (IZR xc + sx)%R.
Proof.
  intros Wr W1 W2 S0 H. pose proof H as H0. unfold compute_lateral_offsets in H0.
  destruct (Rltb 0 diamEst) eqn:E1; [|discriminate]. destruct (Z.ltb_spec 0 n); [|discriminate].
  destruct (Rltb 0 d) eqn:E2; [|discriminate]. destruct (Z.ltb_spec 0 N); [|discriminate].
  destruct (Z.ltb_spec 0 nCrop); [|discriminate]. destruct (Z.ltb_spec 0 nIter); [|discriminate]. clear H0.
  apply Rltb_iff in E1, E2.
  rewrite (lateral_unfold fuel rnd meas ref diamEst n d N nCrop nIter useCoarse xCoarse yCoarse xc yc) in H by auto.
  destruct (lateral_loop _ _ _ _ _ _ _) as [s|e] eqn:L; [|discriminate]. cbn [bind] in H. injection H as Hy Hx.
  apply (loop_search lstsq oracle) in L; auto. eauto.
Qed.
Lemma lateral_rejects fuel rnd meas ref diamEst n d N nCrop nIter useCoarse xCoarse yCoarse :
  (diamEst <= 0)%R \/ n <= 0 \/ (d <= 0)%R \/ N <= 0 \/ nCrop <= 0 \/ nIter <= 0 ->
  compute_lateral_offsets lstsq fuel rnd meas ref diamEst n d N nCrop nIter useCoarse xCoarse yCoarse = Some (Err TypeError).
Proof.
  intros H. unfold compute_lateral_offsets.
  destruct (Rltb 0 diamEst) eqn:E1; [|auto]. destruct (Z.ltb_spec 0 n); [|auto].
  destruct (Rltb 0 d) eqn:E2; [|auto]. destruct (Z.ltb_spec 0 N); [|auto].
  destruct (Z.ltb_spec 0 nCrop); [|auto]. destruct (Z.ltb_spec 0 nIter); [|auto].
  apply Rltb_iff in E1, E2. exfalso. destruct H as [?|[?|[?|[?|[?|?]]]]]; lra || lia.
Qed.
Lemma best_trial_zero m n d i j x y : first_max (fun i j => - m (trial n d 0 j) (trial n d 0 i))%R n n i j ->
  (forall u v, 0 <= m u v)%R -> (exists i' j', 0 <= i' < n /\ 0 <= j' < n /\ trial n d 0 j' = x /\ trial n d 0 i' = y) ->
  m x y = 0%R -> m (trial n d 0 j) (trial n d 0 i) = 0%R.
Proof.
  intros F P (i' & j' & Hi & Hj & Ex & Ey) Z. destruct F as (_ & _ & Mx & _).
  pose proof (Mx i' j' Hi Hj) as L. cbv beta in L. rewrite Ex, Ey, Z in L.
  pose proof (P (trial n d 0 j) (trial n d 0 i)). lra.
Qed.
Lemma trial_diff n d i j : 0 <= i < n -> 0 <= j < n -> (0 < d)%R -> (Rabs (trial n d 0 i - trial n d 0 j) <= IZR (n - 1) * d)%R.
Proof.
  intros Hi Hj Hd. unfold trial.
  replace (0 + (IZR i - (IZR n - 1) / 2) * d - (0 + (IZR j - (IZR n - 1) / 2) * d))%R with (IZR (i - j) * d)%R by (rewrite minus_IZR; ring).
  rewrite Rabs_mult, (Rabs_pos_eq d) by lra. apply Rmult_le_compat_r; [lra|]. rewrite <- abs_IZR. apply IZR_le. lia.
Qed.
Lemma lateral_recovers fuel rnd meas ref diamEst n d N nCrop nIter useCoarse xCoarse yCoarse xc yc dy dx :
  (0 < diamEst)%R -> 2 <= n -> (0 < d)%R -> 2 <= N -> N mod 2 = 0 -> 2 <= nCrop -> 2 <= nIter ->
  wf ref -> 0 < nr meas -> 0 < nc meas -> starts fuel rnd meas diamEst useCoarse xCoarse yCoarse xc yc ->
  window_shift N (window ref N 0 0) dy dx (window meas N yc xc) ->
  spectrum N (window ref N 0 0) 0 (-1) <> RtoC 0 -> spectrum N (window ref N 0 0) (-1) 0 <> RtoC 0 ->
  (exists i j, 0 <= i < n /\ 0 <= j < n /\ trial n d 0 j = IZR dx /\ trial n d 0 i = IZR dy) ->
  (IZR (n - 1) * d < IZR N)%R ->
  let r := compute_lateral_offsets lstsq fuel rnd meas ref diamEst n d N nCrop nIter useCoarse xCoarse yCoarse in
  r = Some (Err (Custom "QuadraticException")) \/ r = Some (Ok (IZR (yc + dy), IZR (xc + dx))).
Proof.
  intros HE Hn Hd HN He HC Hi Wr W1 W2 S0 Sh Fx Fy Hg Hw. cbv zeta.
  rewrite (lateral_unfold fuel rnd meas ref diamEst n d N nCrop nIter useCoarse xCoarse yCoarse xc yc) by (auto; lia).
  set (fr := window ref N 0 0) in *. set (fm := window meas N yc xc) in *.
  set (m := misfit N nCrop fm fr).
  assert (Em : forall u v, m u v = mismatch N nCrop fr (u - IZR dx) (v - IZR dy)) by (intros; apply misfit_shift; auto; lia).
  assert (L : lateral_loop lstsq m n nIter 0 (Z.to_nat nIter) (0, 0, d)%R = lateral_loop lstsq m n nIter 1 (Z.to_nat (nIter - 1)) (IZR dx, IZR dy, d)).
  { replace (Z.to_nat nIter) with (S (Z.to_nat (nIter - 1))) by lia. cbn [lateral_loop].
    unfold lateral_step at 1. destruct (Z.ltb_spec 1 nIter); [|lia]. cbn [Z.ltb Z.compare Z.eqb andb].
    destruct (argmin_ok n (fun iy ix => m (vat (delta_vec n d 0) ix) (vat (delta_vec n d 0) iy)) ltac:(lia)) as (b & Eb & B).
    rewrite Eb. cbn [bind]. pose proof B as (Bi & Bj & _). rewrite !delta_at by auto.
    assert (B' : first_max (fun i j => - m (trial n d 0 j) (trial n d 0 i))%R n n (fst b) (snd b)).
    { revert B. apply first_max_ext. intros i j Hi' Hj'. rewrite !delta_at by auto. auto. }
    assert (Z0 : m (trial n d 0 (snd b)) (trial n d 0 (fst b)) = 0%R).
    { apply (best_trial_zero m n d _ _ (IZR dx) (IZR dy) B'); auto.
      - intros u v. rewrite Em. apply mismatch_nonneg.
      - rewrite Em, !Rminus_eq_0. apply mismatch_0. }
    rewrite Em in Z0. destruct Hg as (i & j & Hi' & Hj' & Ex & Ey).
    apply mismatch_zero in Z0 as [Zx Zy]; auto.
    + replace (trial n d 0 (snd b)) with (IZR dx) by lra. replace (trial n d 0 (fst b)) with (IZR dy) by lra. auto.
    + rewrite <- Ex. eapply Rle_lt_trans; [apply trial_diff; auto|auto].
    + rewrite <- Ey. eapply Rle_lt_trans; [apply trial_diff; auto|auto]. }
  rewrite L. destruct (loop_symmetric lstsq oracle m n nIter (IZR dx) (IZR dy) Hn) with (j := Z.to_nat (nIter - 1)) (k := 1) (dp := d)
    as [E|[dp' E]].
  - intros u v. rewrite !Em. rewrite <- mismatch_even. f_equal; ring.
  - lia.
  - lra.
  - rewrite E. left. reflexivity.
  - rewrite E. cbn [bind fst snd]. right. rewrite !plus_IZR. auto.
Qed.
End Whole.
