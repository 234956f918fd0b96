(** The occulter transmission: file-resolution coefficients and the bare substrate. *)
From Coq Require Import ZArith Bool List String Reals Lia Lra.
From Flocq Require Import Core.
From Coquelicot Require Import Complex.
From Verif.Base Require Import Py Arr Vec Sums CSum Fft.
From Verif.Model Require Import Math PadCrop Fits ThinFilm MaskGen.
From Verif.Spec Require Import ThinFilmSpec MaskGenSpec HlcSpec.
From Verif.Proofs Require Import PadCropP MathP PsfFitP DarkHoleP ThinFilmP ThinFilmQ ThinFilmR ThinFilmS MaskGenP MaskGenQ.
Import ListNotations.
Open Scope list_scope.
Open Scope R_scope.

(** ** A bare substrate transmits *)
Lemma bare_solver lam theta tm d0 ns n1 (n2 n3 : C) : 0 < lam -> 0 <= theta -> theta < PI / 2 -> 0 < d0 -> 1 < ns -> 1 < n1 ->
  0 < fst n2 -> snd n2 < 0 -> 0 < fst n3 -> snd n3 < 0 ->
  exists refl trans rr k, solver [RtoC 1; RtoC 1; RtoC n1; n2; n3; RtoC ns] [d0; 0; 0; 0] theta lam tm =
    Ok (Some (refl, trans, rr, Some (RtoC k * pass lam (RtoC 1, RtoC (1 * cos theta), d0))%C)) /\ 0 < k.
Proof.
  intros Hl H0 H1 Hd Hs Hn1 A2 B2 A3 B3.
  assert (G0 := not_grazing_real 1 theta H0 H1 ltac:(lra)). assert (G1 := not_grazing_real n1 theta H0 H1 ltac:(lra)).
  assert (G2 := not_grazing_metal n2 theta A2 B2). assert (G3 := not_grazing_metal n3 theta A3 B3).
  assert (P0 : passive (RtoC 1)) by (split; cbn; lra). assert (P1 : passive (RtoC n1)) by (split; cbn; lra).
  assert (P2 : passive n2) by (split; lra). assert (P3 : passive n3) by (split; lra). assert (PS : passive (RtoC ns)) by (split; cbn; lra).
  assert (Z1 := zero_passive_lem 1 theta lam tm [(RtoC 1, d0)] [(n2, 0); (n3, 0)] (RtoC n1) (RtoC ns) Rlt_0_1 H0 H1 Hl).
  assert (Z2 := zero_passive_lem 1 theta lam tm [(RtoC 1, d0)] [(n3, 0)] n2 (RtoC ns) Rlt_0_1 H0 H1 Hl).
  assert (Z3 := zero_passive_lem 1 theta lam tm [(RtoC 1, d0)] [] n3 (RtoC ns) Rlt_0_1 H0 H1 Hl).
  unfold stack_n, stack_d in *. cbn [app map fst snd] in *.
  rewrite Z1; auto.
  2:{ intros p [<-|[<-|[<-|[]]]]; cbn [fst snd]; (split; [auto|]); (split; [auto|]); lra. }
  rewrite Z2; auto.
  2:{ intros p [<-|[<-|[]]]; cbn [fst snd]; (split; [auto|]); (split; [auto|]); lra. }
  rewrite Z3; auto.
  2:{ intros p [<-|[]]; cbn [fst snd]; (split; [auto|]); (split; [auto|]); lra. }
  clear Z1 Z2 Z3. assert (C0 : 0 < cos theta) by (apply cos_gt_0; lra). assert (S := sin2_cos2 theta). unfold Rsqr in S.
  set (c := cos theta) in *. set (q := sqrt (ns * ns - (1 * sin theta) ^ 2)).
  assert (Q0 : 0 < q) by (apply sqrt_lt_R0; nra).
  assert (Q1 : q * q = ns * ns - (1 * sin theta) ^ 2) by (apply sqrt_sqrt; nra).
  assert (SA := solver_airy 1 theta lam tm [(RtoC 1, RtoC (1 * c), d0)] (RtoC ns) (RtoC q) Rlt_0_1 H0 H1 Hl).
  cbv zeta in SA. cbn [map app] in SA. unfold m_n, m_d in SA. cbn [fst snd] in SA. fold c in SA. rewrite SA; auto; clear SA.
  2:{ intros m [<-|[]]. unfold m_n, m_q, m_d. cbn [fst snd]. split; [auto|]. split; [auto|]. split; [left; lra|]. split.
      - unfold normal_index. rewrite <- !RtoC_mult, <- RtoC_minus. f_equal. nra.
      - left. cbn. lra. }
  2:{ split; [|left; cbn; auto]. unfold normal_index. rewrite <- !RtoC_mult, <- RtoC_minus. f_equal. auto. }
  set (rr := fst (airy tm lam _ _)). set (P := fst (admittance tm (RtoC ns, RtoC q, 0) / admittance tm (RtoC 1, RtoC (1 * c), 0))%C).
  set (a := if tm then c else c). set (b := if tm then q / (ns * ns) else q).
  assert (Hb : 0 < b) by (unfold b; destruct tm; auto; apply Rdiv_lt_0_compat; nra).
  assert (AD : forall d, admittance tm (RtoC 1, RtoC (1 * c), d) = RtoC c).
  { intros d. unfold admittance, m_q, m_n. cbn [fst snd]. destruct tm; [|f_equal; ring].
    rewrite <- RtoC_mult, <- RtoC_div by lra. f_equal. field. }
  assert (AF : admittance tm (RtoC ns, RtoC q, 0) = RtoC b).
  { unfold admittance, m_q, m_n, b. cbn [fst snd]. destruct tm; auto. rewrite <- RtoC_mult, <- RtoC_div; auto. nra. }
  assert (HP : P = b / c). { unfold P. rewrite AD, AF, <- RtoC_div by lra. reflexivity. }
  exists (Cmod rr ^ 2), (P * Cmod (snd (airy tm lam (RtoC 1, RtoC (1 * c), 0) [(RtoC 1, RtoC (1 * c), d0); (RtoC ns, RtoC q, 0)])) ^ 2), rr.
  exists (sqrt P * (2 * c / (c + b))).
  split.
  - assert (TT : (RtoC (sqrt P) * snd (airy tm lam (RtoC 1, RtoC (1 * c), 0) [(RtoC 1, RtoC (1 * c), d0); (RtoC ns, RtoC q, 0)]) =
      RtoC (sqrt P * (2 * c / (c + b))) * pass lam (RtoC 1, RtoC (1 * c), d0))%C); [|rewrite <- TT; reflexivity].
    cbn [airy fst snd]. unfold fresnel_r, fresnel_t. rewrite !AD, !AF. set (ps := pass lam (RtoC 1, RtoC (1 * c), d0)).
    assert (PF : pass lam (RtoC ns, RtoC q, 0) = RtoC 1).
    { unfold pass, m_d, m_q. cbn [fst snd]. unfold Cmult, RtoC. cbn [fst snd].
      replace (2 * PI / lam * 0 * 0 + 0 * q) with 0 by ring. replace (2 * PI / lam * 0 * q - 0 * 0) with 0 by ring.
      rewrite exp_0, cos_0, sin_0. apply C_eq; cbn [fst snd]; ring. }
    rewrite PF. rewrite (RtoC_mult (sqrt P)), (RtoC_div (2 * c)), (RtoC_mult 2 c), (RtoC_plus c b) by lra.
    assert (N1 : (RtoC c + RtoC c)%C <> RtoC 0) by (rewrite <- RtoC_plus; apply RC_neq0; lra).
    assert (N2 : (RtoC c + RtoC b)%C <> RtoC 0) by (rewrite <- RtoC_plus; apply RC_neq0; lra).
    assert (N3 : RtoC c <> RtoC 0) by (apply RC_neq0; lra). assert (N4 : RtoC 2 <> RtoC 0) by (apply RC_neq0; lra).
    assert (C1 : RtoC 1 <> RtoC 0) by (apply RC_neq0; lra).
    replace ((RtoC c - RtoC c) / (RtoC c + RtoC c))%C with (RtoC 0) by (field; auto).
    replace (RtoC c + RtoC c)%C with (RtoC 2 * RtoC c)%C by (change 2 with (1 + 1); rewrite RtoC_plus; ring).
    field. auto.
  - apply Rmult_lt_0_compat; [apply sqrt_lt_R0; rewrite HP; apply Rdiv_lt_0_compat; auto|]. apply Rdiv_lt_0_compat; lra.
Qed.
Lemma pass_neq0 lam m : pass lam m <> RtoC 0.
Proof.
  unfold pass. cbv zeta. set (z := (_ * _)%C). generalize z. clear z. intros z E. unfold RtoC in E. injection E as E1 E2.
  assert (X := exp_pos (snd z)). assert (S := sin2_cos2 (fst z)). unfold Rsqr in S.
  assert (A : cos (fst z) = 0) by (apply Rmult_integral in E1; destruct E1; [lra|auto]). assert (B : sin (fst z) = 0).
  { assert (E3 : exp (snd z) * sin (fst z) = 0) by lra. apply Rmult_integral in E3. destruct E3; [lra|auto]. }
  rewrite A, B in S. lra.
Qed.
Lemma conj_neq0 z : z <> RtoC 0 -> Cconj z <> RtoC 0.
Proof. intros H E. apply H. rewrite <- (Cconj_inv2 z), E. apply Cconj_R. Qed.
Lemma bare_ok lam aoi d0 pol : 2 / 10 <= lam * 1000000 <= 4 -> 0 <= aoi -> aoi < 90 -> 0 < d0 -> (pol = 0 \/ pol = 1 \/ pol = 2)%Z ->
  exists t r, calc_complex_occulter shipped lam aoi [0] [0] [0] d0 pol false "FS" = Ok ([Some t], [r]) /\ t <> RtoC 0.
Proof.
  intros Hl Ha Ha' Hd Hp.
  assert (K : occulter_checks lam aoi [0] [0] [0] d0 pol "FS") by (unfold occulter_checks; repeat split; auto; lra).
  rewrite (proj1 (occulter_unfold _ _ _ _ _ _ _ _ _ _) K). cbn [List.combine each fst snd].
  destruct (silica_ok (lam * 1000000 * (lam * 1000000))) as [ns [Es Hs]]; [nra|].
  change (fd_fs shipped) with fused_silica. rewrite Es. unfold occulter_pixel.
  assert (PI0 := PI_RGT_0). set (theta := aoi * (PI / 180)).
  assert (T0 : 0 <= theta) by (unfold theta; apply Rmult_le_pos; lra). assert (T1 : theta < PI / 2) by (unfold theta; nra).
  replace (d0 - 0 - 0 - 0) with d0 by ring.
  assert (I1 := index_ok nickel (lam * 1000000000) nickel_ok). assert (I2 := index_ok titanium (lam * 1000000000) titanium_ok).
  assert (I3 := pmgi_ok (lam * 1000000) ltac:(lra)).
  assert (B := fun tm => bare_solver lam theta tm d0 ns _ _ _ ltac:(lra) T0 T1 Hd Hs I3 (proj1 I1) (proj2 I1) (proj1 I2) (proj2 I2)).
  change (fd_ni shipped) with nickel. change (fd_ti shipped) with titanium.
  destruct (Z.eqb pol 2).
  - destruct (B false) as (? & ? & ? & k & E & Hk). destruct (B true) as (? & ? & ? & k' & E' & Hk'). rewrite E, E'. cbn [bind fst snd map].
    eexists. eexists. split; [reflexivity|]. apply conj_neq0. unfold cmean. intros N.
    assert (Q : (RtoC (k + k') * pass lam (RtoC 1, RtoC (1 * cos theta), d0) = RtoC 0)%C).
    { transitivity (RtoC 2 * RtoC 0)%C; [|ring]. rewrite <- N, RtoC_plus. assert (RtoC 2 <> RtoC 0) by (apply RC_neq0; lra). field. auto. }
    apply Cmult_neq_0 in Q; auto; [apply RC_neq0; lra|apply pass_neq0].
  - destruct (B (negb (pol =? 0)%Z)) as (? & ? & ? & k & E & Hk). rewrite E. cbn [bind fst snd map].
    eexists. eexists. split; [reflexivity|]. apply conj_neq0. apply Cmult_neq_0; [apply RC_neq0; lra|apply pass_neq0].
Qed.

(** ** Transmission at file resolution *)
Open Scope Z_scope.
Section Start.
Variables (fd : film_data) (p : hlc) (lam : R).
Notation pco := (pixel_coef fd p lam).
Lemma nth_map_const {A B} (l : list A) (c : B) k x : nth_error l k = Some x -> nth_error (map (fun _ => c) l) k = Some c.
Proof. intros H. erewrite map_nth_error; eauto. Qed.
Lemma each_length {A B} (f : A -> res B) l ys : each f l = Ok ys -> List.length ys = List.length l.
Proof.
  revert ys. induction l as [|x l IH]; cbn [each]; intros ys H; [injection H as <-; auto|].
  destruct (f x); [|discriminate]. cbn [bind] in H. destruct (each f l); [|discriminate]. cbn [bind] in H. injection H as <-.
  cbn [List.length]. rewrite IH; auto.
Qed.
Lemma occulter_length lam' aoi tTi tNi tPMGI d0 pol opd sub ts rs :
  calc_complex_occulter fd lam' aoi tTi tNi tPMGI d0 pol opd sub = Ok (ts, rs) ->
  List.length tTi = List.length tPMGI /\ List.length tNi = List.length tPMGI -> List.length ts = List.length tPMGI.
Proof.
  intros H [L1 L2]. destruct (Classical_Prop.classic (occulter_checks lam' aoi tTi tNi tPMGI d0 pol sub)) as [K|K].
  2:{ rewrite (proj2 (occulter_unfold _ _ _ _ _ _ _ _ _ _) K) in H. discriminate. }
  rewrite (proj1 (occulter_unfold _ _ _ _ _ _ _ _ _ _) K) in H.
  destruct (each _ _) as [out|] eqn:E; [|discriminate]. cbn [bind] in H. injection H as <- <-. rewrite map_length, (each_length _ _ _ E), !combine_length. lia.
Qed.
Lemma start_ok N s : wf (h_pmgi p) -> least_odd_above (IZR (Z.max (nr (h_pmgi p)) (nc (h_pmgi p)))) N -> 0 < N ->
  occ_start fd p lam = Ok (Some s) ->
  nr s = N /\ nc s = N /\ exists tc, tc <> RtoC 0 /\ pco (off_centre (h_pmgi p) (- (N / 2)) (- (N / 2))) (Some tc) /\
  forall i j, 0 <= i < N -> 0 <= j < N -> exists t,
    pco (off_centre (h_pmgi p) (i - N / 2) (j - N / 2)) (Some t) /\ at2 s i j = (t / tc)%C.
Proof.
  intros W HN N0. unfold occ_start. rewrite (least_unique _ _ _ (least_odd _) HN).
  destruct (pad_crop_ok (h_pmgi p) N N 0%R W ltac:(lia) ltac:(lia)) as (m & E & R1 & C1 & V). rewrite E. cbn [bind].
  set (occ := filter (Rltb 0) (elements m)). set (hRef := (h_hRefCoef p * h_lam0 p)%R).
  destruct (calc_complex_occulter fd lam (h_aoi p) (map (fun _ => h_hTi p) occ) _ _ _ _ _ _) as [[ts rs]|] eqn:ET; [|discriminate].
  cbn [bind fst].
  destruct (calc_complex_occulter fd lam (h_aoi p) [0%R] _ _ _ _ _ _) as [[us ur]|] eqn:ES; [|discriminate]. cbn [bind fst].
  assert (LU := occulter_length _ _ _ _ _ _ _ _ _ _ _ ES ltac:(split; reflexivity)).
  assert (LT := occulter_length _ _ _ _ _ _ _ _ _ _ _ ET ltac:(split; apply map_length)).
  destruct us as [|sub [|]]; try discriminate. clear LU.
  destruct (all_some _) as [flat|] eqn:EA; [|discriminate]. apply all_some_ok in EA.
  destruct (Ceq_dec _ _) as [|Nz]; [discriminate|]. intros X. injection X as <-. cbn [nr nc at2]. split; [auto|]. split; [auto|].
  destruct (scatter_nth (elements m) sub ts LT) as [SL SN].
  assert (KEY : forall i j, 0 <= i < N -> 0 <= j < N ->
    pco (off_centre (h_pmgi p) (i - N / 2) (j - N / 2)) (Some (nth (Z.to_nat (i * N + j)) flat (RtoC 0)))).
  { intros i j Hi Hj.
    assert (EV : at2 m i j = off_centre (h_pmgi p) (i - N / 2) (j - N / 2)).
    { rewrite V by auto. unfold off_centre.
      replace (nr (h_pmgi p) / 2 + (i - N / 2)) with (i - N / 2 + nr (h_pmgi p) / 2) by ring.
      replace (nc (h_pmgi p) / 2 + (j - N / 2)) with (j - N / 2 + nc (h_pmgi p) / 2) by ring. reflexivity. }
    rewrite <- EV. set (k := Z.to_nat (i * N + j)).
    assert (HK : nth_error (elements m) k = Some (at2 m i j)).
    { unfold k. rewrite <- C1. apply nth_error_elements. unfold in_arr. lia. }
    specialize (SN k _ HK). rewrite EA in SN, SL.
    assert (LF : (k < List.length flat)%nat).
    { rewrite map_length in SL. rewrite SL. apply nth_error_Some. congruence. }
    rewrite (map_nth_error Some k flat (nth_error_nth' flat (RtoC 0) LF)) in SN.
    unfold pixel_coef. unfold Rltb in SN. destruct (Rlt_dec 0 (at2 m i j)) as [Hp|Hp].
    - assert (FN : nth_error occ (List.length (filter (Rltb 0) (firstn k (elements m)))) = Some (at2 m i j)).
      { apply filter_firstn_nth; auto. unfold Rltb. destruct (Rlt_dec 0 (at2 m i j)); auto. }
      destruct (pixelwise_lem fd lam (h_aoi p) _ _ _ _ _ _ _ _ _ _ _ _ _ ET (nth_map_const occ (h_hTi p) _ _ FN) (nth_map_const occ (h_hNi p) _ _ FN) FN)
        as (t & r & Ec & Nt & _). exists r. fold hRef. rewrite Ec. unfold Rltb in Nt. rewrite Nt in SN. injection SN as ->. reflexivity.
    - injection SN as <-. exists (hd None ur). fold hRef. rewrite ES. 
      assert (LR : List.length ur = 1%nat).
      { clear -ES. destruct (Classical_Prop.classic (occulter_checks lam (h_aoi p) [0%R] [0%R] [0%R] hRef (h_polState p) "FS")) as [K|K].
        2:{ rewrite (proj2 (occulter_unfold _ _ _ _ _ _ _ _ _ _) K) in ES. discriminate. }
        rewrite (proj1 (occulter_unfold _ _ _ _ _ _ _ _ _ _) K) in ES.
        destruct (each _ _) as [out|] eqn:E; [|discriminate]. apply each_length in E. cbn [bind] in ES. injection ES as H1 <-. rewrite map_length, E. reflexivity. }
      destruct ur as [|u [|]]; try discriminate. reflexivity. }
  exists (nth (Z.to_nat (0 * N + 0)) flat (RtoC 0)). split; [exact Nz|]. split.
  - replace (- (N / 2)) with (0 - N / 2) by ring. apply KEY; lia.
  - intros i j Hi Hj. exists (nth (Z.to_nat (i * N + j)) flat (RtoC 0)). split; [apply KEY; auto|reflexivity].
Qed.
End Start.

(** ** The whole generator *)
Section Gen.
Variables (rotate : rotate_fun) (spline : bispline_fun) (fd : film_data) (p : hlc) (lam : R) (scale : bool) (ny nx : Z) (xo yo : R).
Hypothesis HC : hlc_checks p lam ny nx.
Hypothesis W : wf (h_pmgi p).
Notation pst := (ppl_start p).
Notation pen := (ppl_end p lam scale).
Notation nen := (n_end p lam scale).
Notation nmi := (n_mid p lam scale).
Notation rat := (ratio p lam scale).
Notation mag := (magn p lam scale).
Variable s : arr C.
Notation pre := (part_re s).
Notation pim := (part_im s).
Variable N : Z.
Hypothesis HN : least_odd_above (IZR (Z.max (nr (h_pmgi p)) (nc (h_pmgi p)))) N.
Hypothesis HS : occ_start fd p lam = Ok (Some s).

Lemma N_pos : 0 < N.
Proof.
  destruct W as [W1 W2]. destruct HN as ((k & ->) & B & _). apply le_IZR in B. lia.
Qed.
Lemma s_shape : nr s = N /\ nc s = N /\ at2 s 0 0 = RtoC 1.
Proof.
  pose proof N_pos as NP. destruct (start_ok fd p lam N s W HN NP HS) as (A & B & tc & Nz & PC & V).
  split; [auto|]. split; [auto|]. destruct (V 0 0 ltac:(lia) ltac:(lia)) as (t & PT & ->).
  destruct PC as (r1 & E1), PT as (r2 & E2). rewrite !Z.sub_0_l in E2. rewrite E1 in E2. injection E2 as -> _. field. auto.
Qed.
Lemma start_ppl : (0 < pst)%R /\ (0 < pen)%R.
Proof.
  destruct HC as ((A & B & C & D & E & F & G & _) & _). unfold ppl_start, ppl_end. split.
  - apply Rdiv_lt_0_compat; auto. apply Rmult_lt_0_compat; auto.
  - destruct scale; auto. apply Rmult_lt_0_compat; auto. apply Rdiv_lt_0_compat; auto.
Qed.
Definition down (a : arr R) : res (arr R) :=
  rotate_shift_downsample rotate spline a (h_rotDeg p) mag (xo * rat) (yo * rat) (h_padFac p) false.
Lemma gen_unfold : gen_hlc_occulter rotate spline fd p lam scale [ny; nx] xo yo =
  (check negb (nen =? 0) else ZeroDivisionError;
   do re <- down pre; do im <- down pim;
   do mid <- pad_crop (amap2 (fun a b => (a, b) : C) re im) [nmi; nmi] (RtoC 0);
   do core <- resample (amap (fun z => z + RtoC 1)%C mid) nen;
   do o <- pad_crop (amap (fun z => z - RtoC 1)%C core) [ny; nx] (RtoC 0);
   Ok (Some (amap (fun z => z + RtoC 1)%C o))).
Proof.
  destruct s_shape as (_ & _ & S1).
  destruct HC as ((A & B & C & D & E & F & G & H & I & J & K) & L & M1 & M2).
  unfold gen_hlc_occulter. cbn [List.length Nat.eqb forallb].
  rewrite (proj2 (Z.ltb_lt 0 ny) M1), (proj2 (Z.ltb_lt 0 nx) M2).
  assert (PS : (h_polState p =? 0) || (h_polState p =? 1) || (h_polState p =? 2) = true) by (destruct L as [-> | [-> | ->]]; reflexivity).
  rewrite PS. unfold Rltb, Rleb.
  repeat match goal with |- context [Rlt_dec ?a ?b] => destruct (Rlt_dec a b); try (exfalso; lra) end.
  destruct (Rle_dec 90 (h_aoi p)); [exfalso; lra|].
  cbn [negb andb guard bind]. rewrite HS. cbn [bind]. fold pst pen. fold nen. fold nmi. fold rat. fold mag.
  rewrite S1. fold pre pim. fold (down pre). fold (down pim). unfold guard.
  destruct (nen =? 0); [reflexivity|]. cbn [negb bind].
  destruct (down pre) as [re|]; [|reflexivity]. cbn [bind]. destruct (down pim) as [im|]; [|reflexivity]. cbn [bind].
  destruct (pad_crop _ [nmi; nmi] _) as [mid|]; [|reflexivity]. cbn [bind]. unfold resample.
  destruct (ifft2 _) as [f|]; [|reflexivity]. cbn [bind]. destruct (pad_crop _ [nen; nen] _) as [ft|]; [|reflexivity]. cbn [bind].
  destruct (fft2 _) as [e|]; reflexivity.
Qed.
Lemma magn_ok : 0 < nen -> 0 < nmi -> (0 < mag <= 1)%R.
Proof.
  intros H1 H2. destruct start_ppl as [P1 P2]. unfold magn, ratio.
  assert (Q1 : (0 < IZR nen)%R) by (apply IZR_lt; auto). assert (Q2 : (0 < IZR nmi)%R) by (apply IZR_lt; auto).
  assert (FL := Zfloor_lb (pst / pen * IZR nen)). fold nmi in FL. split.
  - apply Rdiv_lt_0_compat; auto. apply Rmult_lt_0_compat; auto. apply Rdiv_lt_0_compat; auto.
  - apply (Rcomplements.Rle_div_l (IZR nmi / IZR nen * pen) 1 pst); auto.
    replace (IZR nmi / IZR nen * pen)%R with (IZR nmi * (pen / IZR nen))%R by (field; lra).
    apply Rle_trans with (pst / pen * IZR nen * (pen / IZR nen))%R.
    + apply Rmult_le_compat_r; auto. apply Rlt_le, Rdiv_lt_0_compat; auto.
    + right. field. lra.
Qed.
Lemma zero_end : nen = 0 -> gen_hlc_occulter rotate spline fd p lam scale [ny; nx] xo yo = Err ZeroDivisionError.
Proof. intros H. rewrite gen_unfold, H. reflexivity. Qed.
Lemma small_mid : 0 < nen -> nmi <= 0 -> gen_hlc_occulter rotate spline fd p lam scale [ny; nx] xo yo = Err TypeError.
Proof.
  intros H1 H2. rewrite gen_unfold. destruct (Z.eqb_spec nen 0); [lia|]. cbn [negb guard bind].
  assert (wf pre). { destruct s_shape as (A & B & _). pose proof N_pos. unfold wf, part_re. cbn [nr nc amap]. lia. }
  unfold down. rewrite down_rejects'; auto. left. intros [M _].
  destruct start_ppl as [P1 P2]. assert (Q1 : (0 < IZR nen)%R) by (apply IZR_lt; auto). assert (Q2 : (IZR nmi <= 0)%R) by (apply (IZR_le _ 0); auto).
  unfold magn, ratio in M. assert (0 < / IZR nen)%R by (apply Rinv_0_lt_compat; auto). assert (0 < / pst)%R by (apply Rinv_0_lt_compat; auto).
  unfold Rdiv in M. assert (IZR nmi * (/ IZR nen * pen * / pst) <= 0)%R; [|lra].
  assert (0 < / IZR nen * pen * / pst)%R by (repeat apply Rmult_lt_0_compat; auto). nra.
Qed.
Lemma parts_same (a b : arr R) ra : down a = Ok ra -> nr a = nr b -> nc a = nc b -> wf a -> 4 <= nr a -> nr a = nc a ->
  exists rb, down b = Ok rb /\ (nr ra = nr rb /\ nc ra = nc rb) /\ wf ra.
Proof.
  intros E HR HCc Wa L4 Sq. unfold down in *.
  destruct (Classical_Prop.classic ((0 < mag <= 1)%R /\ (1 <= h_padFac p)%R)) as [[M P]|Nn].
  2:{ rewrite down_rejects' in E; [discriminate|]. destruct (Classical_Prop.classic (0 < mag <= 1)%R); [right|left]; auto.
      apply Rnot_le_lt. intros Q. apply Nn. auto. }
  assert (Wb : wf b) by (unfold wf in *; lia).
  set (x := (h_padFac p * IZR (Z.max (nr a) (nc a)))%R).
  pose proof (least_odd x) as LO. assert (OD : exists h, ceil_odd x = 2 * h + 1) by (destruct LO as ((k & K) & _); exists k; auto).
  destruct OD as (h & Eh). rewrite Eh in LO.
  set (y := (IZR (2 * h + 1) * mag + 2 + 2 * Rmax (Rabs (xo * rat)) (Rabs (yo * rat)))%R).
  pose proof (least_odd y) as LY. assert (OY : exists H, ceil_odd y = 2 * H + 1) by (destruct LY as ((k & K) & _); exists k; auto).
  destruct OY as (H & EH). rewrite EH in LY.
  assert (h4 : 4 <= 2 * h + 1).
  { destruct LO as (_ & B & _). apply le_IZR. apply Rle_trans with x; auto. unfold x.
    apply Rle_trans with (1 * IZR (Z.max (nr a) (nc a)))%R; [rewrite Rmult_1_l; apply IZR_le; lia|].
    apply Rmult_le_compat_r; auto. apply (IZR_le 0). lia. }
  destruct (down_ok rotate spline a (h_rotDeg p) mag (xo * rat) (yo * rat) (h_padFac p) false Wa M P h H LO LY h4)
    as (oa & Aa & _ & Ea & R1 & C1 & _).
  assert (LO' : least_odd_above (h_padFac p * IZR (Z.max (nr b) (nc b))) (2 * h + 1)) by (rewrite <- HR, <- HCc; exact LO).
  destruct (down_ok rotate spline b (h_rotDeg p) mag (xo * rat) (yo * rat) (h_padFac p) false Wb M P h H LO' LY h4)
    as (ob & Ab & _ & Eb & R2 & C2 & _).
  assert (oa = ra) by congruence. subst oa. exists ob. split; [exact Eb|]. unfold wf.
  pose proof (H_nonneg a mag (xo * rat) (yo * rat) (h_padFac p) Wa M P h H LO LY) as Hn. lia.
Qed.
Lemma neg_end : 4 <= N -> nen < 0 -> gen_hlc_occulter rotate spline fd p lam scale [ny; nx] xo yo = Err TypeError.
Proof.
  intros N4 H1. rewrite gen_unfold. destruct (Z.eqb_spec nen 0); [lia|]. cbn [negb guard bind].
  destruct s_shape as (A & B & _). pose proof N_pos as NP.
  assert (NM : nmi < 0).
  { destruct start_ppl as [P1 P2]. unfold n_mid. apply lt_IZR. eapply Rle_lt_trans; [apply Zfloor_lb|].
    assert (0 < pst / pen)%R by (apply Rdiv_lt_0_compat; auto). assert (IZR nen < 0)%R by (apply (IZR_lt _ 0); auto). nra. }
  assert (Wr : wf pre) by (unfold wf, part_re; cbn [nr nc amap]; lia).
  destruct (down pre) as [re|e] eqn:E.
  - destruct (parts_same pre pim re E eq_refl eq_refl Wr) as (im & E' & Sh & Wre); try (unfold part_re; cbn [nr nc amap]; lia).
    cbn [bind]. rewrite E'. cbn [bind]. unfold pad_crop, guard. destruct (Z.ltb_spec 0 nmi); [lia|]. reflexivity.
  - cbn [bind]. f_equal. unfold down in E. destruct (Classical_Prop.classic ((0 < mag <= 1)%R /\ (1 <= h_padFac p)%R)) as [[M P]|Nn].
    + exfalso.
      set (x := (h_padFac p * IZR (Z.max (nr pre) (nc pre)))%R) in *.
      pose proof (least_odd x) as LO. assert (OD : exists h, ceil_odd x = 2 * h + 1) by (destruct LO as ((k & K) & _); exists k; auto).
      destruct OD as (h & Eh). rewrite Eh in LO.
      set (y := (IZR (2 * h + 1) * mag + 2 + 2 * Rmax (Rabs (xo * rat)) (Rabs (yo * rat)))%R).
      pose proof (least_odd y) as LY. assert (OY : exists H, ceil_odd y = 2 * H + 1) by (destruct LY as ((k & K) & _); exists k; auto).
      destruct OY as (H & EH). rewrite EH in LY.
      assert (h4 : 4 <= 2 * h + 1).
      { destruct LO as (_ & LB & _). apply le_IZR. apply Rle_trans with x; auto. unfold x.
        apply Rle_trans with (1 * IZR (Z.max (nr pre) (nc pre)))%R; [rewrite Rmult_1_l; apply IZR_le; unfold part_re; cbn [nr nc amap]; lia|].
        apply Rmult_le_compat_r; auto. apply (IZR_le 0). unfold part_re; cbn [nr nc amap]; lia. }
      destruct (down_ok rotate spline pre (h_rotDeg p) mag (xo * rat) (yo * rat) (h_padFac p) false Wr M P h H LO LY h4)
        as (oa & Aa & _ & Ea & _). rewrite Ea in E. discriminate.
    + rewrite down_rejects' in E; [congruence|]. destruct (Classical_Prop.classic (0 < mag <= 1)%R); [right|left]; auto.
      apply Rnot_le_lt. intros Q. apply Nn. auto.
Qed.

Lemma down_some (a : arr R) : wf a -> nr a = N -> nc a = N -> 4 <= N -> 0 < nen -> 0 < nmi -> exists ra, down a = Ok ra.
Proof.
  intros Wa A1 A2 N4 E0 M0. pose proof (magn_ok E0 M0) as M. assert (P : (1 <= h_padFac p)%R) by (unfold hlc_checks in HC; tauto).
  unfold down.
  set (x := (h_padFac p * IZR (Z.max (nr a) (nc a)))%R).
  pose proof (least_odd x) as LO. assert (OD : exists h, ceil_odd x = 2 * h + 1) by (destruct LO as ((k & K) & _); exists k; auto).
  destruct OD as (h & Eh). rewrite Eh in LO.
  set (y := (IZR (2 * h + 1) * mag + 2 + 2 * Rmax (Rabs (xo * rat)) (Rabs (yo * rat)))%R).
  pose proof (least_odd y) as LY. assert (OY : exists H, ceil_odd y = 2 * H + 1) by (destruct LY as ((k & K) & _); exists k; auto).
  destruct OY as (H & EH). rewrite EH in LY.
  assert (h4 : 4 <= 2 * h + 1).
  { destruct LO as (_ & B & _). apply le_IZR. apply Rle_trans with x; auto. unfold x.
    apply Rle_trans with (1 * IZR (Z.max (nr a) (nc a)))%R; [rewrite Rmult_1_l; apply IZR_le; lia|].
    apply Rmult_le_compat_r; auto. apply (IZR_le 0). lia. }
  destruct (down_ok rotate spline a (h_rotDeg p) mag (xo * rat) (yo * rat) (h_padFac p) false Wa M P h H LO LY h4) as (oa & _ & _ & Ea & _).
  exists oa. exact Ea.
Qed.
(** The result: one outside the centred window of [nen] pixels, inside it the trigonometric resampling of the middle image. *)
Lemma hlc_ok : 4 <= N -> 0 < nen -> 0 < nmi -> exists re im mid core out,
  down pre = Ok re /\ down pim = Ok im /\
  nr mid = nmi /\ nc mid = nmi /\
  (forall i j, 0 <= i < nmi -> 0 <= j < nmi ->
     at2 mid i j = (1 + off_centre re (i - nmi / 2) (j - nmi / 2), off_centre im (i - nmi / 2) (j - nmi / 2))%R) /\
  nr core = nen /\ nc core = nen /\ cmean_of core = cmean_of mid /\
  ((forall i j, in_arr mid i j -> at2 mid i j = RtoC 1) -> forall i j, at2 core i j = RtoC 1) /\
  (forall p q, at2 core p q = cdft2 (-1) nen nen (fun i j =>
    if in_arrb mid (i - nen / 2 + nmi / 2) (j - nen / 2 + nmi / 2)
    then (cdft2 1 nmi nmi (at2 mid) (i - nen / 2 + nmi / 2)%Z (j - nen / 2 + nmi / 2)%Z / RtoC (IZR nmi * IZR nmi))%C
    else RtoC 0) p q) /\
  gen_hlc_occulter rotate spline fd p lam scale [ny; nx] xo yo = Ok (Some out) /\ nr out = ny /\ nc out = nx /\
  forall i j, 0 <= i < ny -> 0 <= j < nx ->
    at2 out i j = if in_arrb core (i - ny / 2 + nen / 2) (j - nx / 2 + nen / 2)
                  then at2 core (i - ny / 2 + nen / 2) (j - nx / 2 + nen / 2) else RtoC 1.
Proof.
  intros N4 E0 M0. destruct s_shape as (A & B & _). pose proof N_pos as NP.
  assert (Wr : wf pre) by (unfold wf, part_re; cbn [nr nc amap]; lia).
  destruct (down_some pre Wr) as (re & Er); auto.
  destruct (parts_same pre pim re Er eq_refl eq_refl Wr) as (im & Ei & Sh & Wre); try (unfold part_re; cbn [nr nc amap]; lia).
  destruct Sh as [Sh1 Sh2].
  set (both := amap2 (fun a b => (a, b) : C) re im).
  assert (Wb : wf both) by (unfold both, wf in *; cbn [nr nc amap2]; auto).
  destruct (pad_crop_ok both nmi nmi (RtoC 0) Wb M0 M0) as (m & Em & R1 & C1 & V).
  set (mid := amap (fun z => z + RtoC 1)%C m).
  destruct (resample_ok mid nmi nen R1 C1 M0 E0) as (core & Ec & D1 & D2 & DV).
  set (sh := amap (fun z => z - RtoC 1)%C core).
  destruct HC as (_ & _ & Hny & Hnx).
  assert (Wsh : wf sh) by (unfold wf, sh; cbn [nr nc amap]; lia).
  destruct (pad_crop_ok sh ny nx (RtoC 0) Wsh Hny Hnx) as (o & Eo & O1 & O2 & OV).
  exists re, im, mid, core, (amap (fun z => z + RtoC 1)%C o).
  split; [exact Er|]. split; [exact Ei|]. split; [exact R1|]. split; [exact C1|]. split.
  { intros i j Hi Hj. unfold mid. cbn [at2 amap]. rewrite V by auto.
    assert (BB : forall u v, in_arrb both u v = in_arrb re u v) by reflexivity.
    assert (BI : forall u v, in_arrb im u v = in_arrb re u v) by (intros; unfold in_arrb; rewrite Sh1, Sh2; auto).
    rewrite BB. unfold off_centre. rewrite BI. unfold both. cbn [nr nc amap2 at2]. rewrite <- Sh1, <- Sh2.
    replace (nr re / 2 + (i - nmi / 2)) with (i - nmi / 2 + nr re / 2) by ring.
    replace (nc re / 2 + (j - nmi / 2)) with (j - nmi / 2 + nc re / 2) by ring.
    destruct (in_arrb re _ _); apply C_eq; unfold Cplus, RtoC; cbn [fst snd]; ring. }
  split; [exact D1|]. split; [exact D2|]. split; [exact (resample_mean mid nmi nen core R1 C1 M0 E0 Ec)|].
  split. { intros K. destruct (resample_const mid nmi nen (RtoC 1) R1 C1 M0 E0 K) as (c' & Ec' & _ & _ & V'). assert (c' = core) by congruence. subst; auto. }
  split; [exact DV|]. split.
  - rewrite gen_unfold. destruct (Z.eqb_spec nen 0); [lia|]. cbn [negb guard bind]. rewrite Er. cbn [bind]. rewrite Ei. cbn [bind].
    fold both. rewrite Em. cbn [bind]. fold mid. rewrite Ec. cbn [bind]. fold sh. rewrite Eo. reflexivity.
  - cbn [nr nc amap at2]. split; [auto|]. split; [auto|]. intros i j Hi Hj. rewrite OV by auto.
    assert (BB : forall u v, in_arrb sh u v = in_arrb core u v) by reflexivity. rewrite BB. unfold sh. cbn [nr nc amap at2]. rewrite D1, D2.
    destruct (in_arrb core _ _); ring.
Qed.
(** An occulter without PMGI is transparent everywhere. *)
Lemma blank_ok : 4 <= N -> 0 < nen -> 0 < nmi -> keeps_zero_spline spline -> keeps_zero_rotate rotate ->
  (forall dy dx, off_centre (h_pmgi p) dy dx <= 0)%R ->
  exists out, gen_hlc_occulter rotate spline fd p lam scale [ny; nx] xo yo = Ok (Some out) /\ nr out = ny /\ nc out = nx /\
  forall i j, 0 <= i < ny -> 0 <= j < nx -> at2 out i j = RtoC 1.
Proof.
  intros N4 E0 M0 ZS ZR Hb. pose proof N_pos as NP.
  destruct (start_ok fd p lam N s W HN NP HS) as (A & B & tc & Nz & PC & V).
  assert (S1 : forall i j, in_arr s i j -> at2 s i j = RtoC 1).
  { intros i j [Hi Hj]. destruct (V i j) as (t & PT & ->); try lia.
    destruct PC as (r1 & E1), PT as (r2 & E2).
    assert (Z1 := Hb (- (N / 2)) (- (N / 2))). assert (Z2 := Hb (i - N / 2) (j - N / 2)).
    destruct (Rlt_dec 0 (off_centre (h_pmgi p) (- (N / 2)) (- (N / 2)))); [lra|].
    destruct (Rlt_dec 0 (off_centre (h_pmgi p) (i - N / 2) (j - N / 2))); [lra|].
    rewrite E1 in E2. injection E2 as -> _. field. auto. }
  assert (DZ : forall (a : arr R) ra, nr a = N -> nc a = N -> (forall i j, in_arr a i j -> at2 a i j = 0%R) -> down a = Ok ra -> forall dy dx, off_centre ra dy dx = 0%R).
  { intros a ra A1 A2 Za Ed dy dx. assert (Wa : wf a) by (unfold wf; lia).
    pose proof (magn_ok E0 M0) as M. assert (P : (1 <= h_padFac p)%R) by (unfold hlc_checks in HC; tauto).
    unfold down in Ed.
    set (x := (h_padFac p * IZR (Z.max (nr a) (nc a)))%R).
    pose proof (least_odd x) as LO. assert (OD : exists h, ceil_odd x = 2 * h + 1) by (destruct LO as ((k & K) & _); exists k; auto).
    destruct OD as (h & Eh). rewrite Eh in LO.
    set (y := (IZR (2 * h + 1) * mag + 2 + 2 * Rmax (Rabs (xo * rat)) (Rabs (yo * rat)))%R).
    pose proof (least_odd y) as LY. assert (OY : exists H, ceil_odd y = 2 * H + 1) by (destruct LY as ((k & K) & _); exists k; auto).
    destruct OY as (H & EH). rewrite EH in LY.
    assert (h4 : 4 <= 2 * h + 1).
    { destruct LO as (_ & LB & _). apply le_IZR. apply Rle_trans with x; auto. unfold x.
      apply Rle_trans with (1 * IZR (Z.max (nr a) (nc a)))%R; [rewrite Rmult_1_l; apply IZR_le; lia|].
      apply Rmult_le_compat_r; auto. apply (IZR_le 0). lia. }
    destruct (down_ok rotate spline a (h_rotDeg p) mag (xo * rat) (yo * rat) (h_padFac p) false Wa M P h H LO LY h4)
      as (oa & Aa & EA & Ea & R1 & C1 & EDGE & VAL).
    assert (oa = ra) by congruence. subst oa.
    pose proof (H_nonneg a mag (xo * rat) (yo * rat) (h_padFac p) Wa M P h H LO LY) as Hn.
    destruct EA as (EA1 & EA2 & EAV). unfold smooth in EA1, EA2, EAV. cbn [nr nc at2] in EA1, EA2, EAV.
    assert (ZA : forall i j, in_arr Aa i j -> at2 Aa i j = 0%R).
    { intros i j Hij. rewrite EAV by (unfold in_arr in *; cbn [nr nc]; lia).
      assert (SB := smoothed_bounds h (/ (2 * mag)) (flipped a false) 0 0 (i - h) (j - h)).
      assert (0 <= smoothed h (/ (2 * mag)) (flipped a false) (i - h) (j - h) <= 0)%R; [|lra]. apply SB; [lia|apply Rlt_le, Rinv_0_lt_compat; lra|].
      intros. unfold flipped, off_centre. destruct (in_arrb a _ _) eqn:Q; [|lra]. apply in_arrb_spec in Q. rewrite Za by auto. lra. }
    unfold off_centre. destruct (in_arrb ra _ _) eqn:Q; auto. apply in_arrb_spec in Q. destruct Q as [Q1 Q2]. rewrite R1, C1 in *.
    replace (2 * (H + 1) / 2) with (H + 1) in * by lia.
    destruct (Z.eq_dec (H + 1 + dy) 0) as [-> | N1]; [apply EDGE; lia|]. destruct (Z.eq_dec (H + 1 + dx) 0) as [-> | N2]; [apply EDGE; lia|].
    assert (L : vlen (unit_grid h) = 2 * h + 1) by (apply arange_ok; lia).
    rewrite VAL by lia. apply ZS; [lia|lia| | |].
    - unfold turned. destruct (Req_EM_T _ 0); [|rewrite (proj1 (ZR _ _))]; rewrite EA1; symmetry; apply arange_ok; lia.
    - unfold turned. destruct (Req_EM_T _ 0); [|rewrite (proj1 (proj2 (ZR _ _)))]; rewrite EA2; symmetry; apply arange_ok; lia.
    - unfold turned. destruct (Req_EM_T _ 0); auto. intros i j Hij. destruct (ZR Aa (- h_rotDeg p)%R) as (Z1 & Z2 & Z3).
      apply Z3; auto. unfold in_arr in *. rewrite Z1, Z2 in Hij. auto. }
  destruct (hlc_ok N4 E0 M0) as (re & im & mid & core & out & Er & Ei & R1 & C1 & MV & D1 & D2 & _ & K & _ & Eg & G1 & G2 & GV).
  exists out. split; [exact Eg|]. split; [auto|]. split; [auto|]. intros i j Hi Hj. rewrite GV by auto.
  assert (ZRe : forall dy dx, off_centre re dy dx = 0%R).
  { apply (DZ pre); auto. intros u v Huv. unfold part_re. cbn [at2 amap]. rewrite S1 by auto. unfold Cminus, Cplus, Copp, RtoC. cbn. ring. }
  assert (ZIm : forall dy dx, off_centre im dy dx = 0%R).
  { apply (DZ pim); auto. intros u v Huv. unfold part_im. cbn [at2 amap]. rewrite S1 by auto. unfold Cminus, Cplus, Copp, RtoC. cbn. ring. }
  rewrite K; [destruct (in_arrb core _ _); auto|].
  intros u v [Hu Hv]. rewrite R1 in Hu. rewrite C1 in Hv. rewrite MV by auto. rewrite ZRe, ZIm. apply C_eq; unfold RtoC; cbn [fst snd]; ring.
Qed.
End Gen.

(** The transmission exists for the shipped tables when the corner of the padded pattern is bare. *)
Lemma all_some_map {A} (l : list A) : all_some (map Some l) = Some l.
Proof. induction l as [|a l IH]; cbn; auto. rewrite IH. auto. Qed.
Lemma start_exists p lam N ny nx : hlc_checks p lam ny nx -> wf (h_pmgi p) -> (2 / 10 <= lam * 1000000 <= 4)%R ->
  least_odd_above (IZR (Z.max (nr (h_pmgi p)) (nc (h_pmgi p)))) N ->
  (off_centre (h_pmgi p) (- (N / 2)) (- (N / 2)) <= 0)%R -> exists s, occ_start shipped p lam = Ok (Some s).
Proof.
  intros HC W Hl HN Hc. pose proof (N_pos p W N HN) as NP.
  destruct HC as ((A & B & C & D & E & F & G & H & [I1 I2] & J & K) & L & M1 & M2).
  unfold occ_start. rewrite (least_unique _ _ _ (least_odd _) HN).
  destruct (pad_crop_ok (h_pmgi p) N N 0%R W ltac:(lia) ltac:(lia)) as (m & Em & R1 & C1 & V). rewrite Em. cbn [bind].
  set (occ := filter (Rltb 0) (elements m)). set (hRef := (h_hRefCoef p * h_lam0 p)%R).
  assert (HR : (0 < hRef)%R) by (apply Rmult_lt_0_compat; auto).
  destruct (occulter_passive_lem lam (h_aoi p) (map (fun _ => h_hTi p) occ) (map (fun _ => h_hNi p) occ) occ hRef (h_polState p) false "FS")
    as (out & Eo & Lo & Po).
  { unfold occulter_checks. rewrite !map_length. repeat split; auto. }
  { exact Hl. }
  { intros x Hx. apply in_map_iff in Hx. destruct Hx as (? & <- & _). lra. }
  { intros x Hx. apply in_map_iff in Hx. destruct Hx as (? & <- & _). lra. }
  { intros x Hx. apply filter_In in Hx. destruct Hx as [_ Hx]. unfold Rltb in Hx. destruct (Rlt_dec 0 x); [lra|discriminate]. }
  rewrite Eo. cbn [bind fst]. destruct (bare_ok lam (h_aoi p) hRef (h_polState p) Hl I1 I2 HR L) as (t & r & Et & Nt). rewrite Et. cbn [bind fst].
  assert (LT : List.length (map fst out) = List.length (filter (Rltb 0) (elements m))) by (rewrite map_length, Lo, map_length; auto).
  assert (AS : exists flat, scatter (elements m) (Some t) (map fst out) = map Some flat).
  { assert (AllSome : forall o, In o (map fst out) -> exists c, o = Some c).
    { intros o Ho. apply in_map_iff in Ho. destruct Ho as (q & <- & Hq). destruct (Po q Hq) as (tc & rc & -> & _). exists tc. auto. }
    clear -AllSome LT. revert LT AllSome. generalize (map fst out). intros l. generalize (elements m). intros e. revert l.
    induction e as [|x e IH]; intros l LT AllSome; cbn [scatter filter] in *; [exists []; auto|].
    destruct (Rltb 0 x).
    - destruct l as [|o l]; [discriminate|]. destruct (AllSome o (or_introl eq_refl)) as (c & ->).
      destruct (IH l) as (fl & ->); [cbn [List.length] in LT; lia|intros; apply AllSome; now right|]. exists (c :: fl). auto.
    - destruct (IH l) as (fl & ->); auto. exists (t :: fl). auto. }
  destruct AS as (flat & AS). rewrite AS, all_some_map.
  destruct (scatter_nth (elements m) (Some t) (map fst out) LT) as [SL SN].
  assert (HK : nth_error (elements m) 0 = Some (at2 m 0 0)).
  { rewrite <- (nth_error_elements m 0 0) by (unfold in_arr; lia). f_equal. }
  specialize (SN 0%nat _ HK). rewrite V in SN by lia.
  assert (OC : (if in_arrb (h_pmgi p) (0 - N / 2 + nr (h_pmgi p) / 2) (0 - N / 2 + nc (h_pmgi p) / 2)
            then at2 (h_pmgi p) (0 - N / 2 + nr (h_pmgi p) / 2) (0 - N / 2 + nc (h_pmgi p) / 2) else 0%R) = off_centre (h_pmgi p) (- (N / 2)) (- (N / 2))).
  { unfold off_centre. replace (0 - N / 2 + nr (h_pmgi p) / 2) with (nr (h_pmgi p) / 2 + - (N / 2)) by ring.
    replace (0 - N / 2 + nc (h_pmgi p) / 2) with (nc (h_pmgi p) / 2 + - (N / 2)) by ring. auto. }
  rewrite OC in SN. unfold Rltb in SN at 1. destruct (Rlt_dec 0 (off_centre _ _ _)); [lra|].
  rewrite AS in SN. destruct flat as [|c0 fl]; [discriminate|]. cbn [map nth_error] in SN. injection SN as ->.
  replace (Z.to_nat (0 * N + 0)) with 0%nat by reflexivity. cbn [nth].
  destruct (Ceq_dec t (RtoC 0)); [contradiction|]. eexists. reflexivity.
Qed.

(** ** Rejected inputs *)
Lemma hlc_rejects rotate spline fd p lam scale shapeOut xo yo :
  ~ (exists ny nx, shapeOut = [ny; nx] /\ hlc_checks p lam ny nx) ->
  gen_hlc_occulter rotate spline fd p lam scale shapeOut xo yo = Err TypeError.
Proof.
  intros H. unfold gen_hlc_occulter.
  assert (Lt : forall x y, Rltb x y = true <-> (x < y)%R) by (intros; unfold Rltb; destruct (Rlt_dec x y); split; auto; discriminate).
  assert (Le : forall x y, Rleb x y = true <-> (x <= y)%R) by (intros; unfold Rleb; destruct (Rle_dec x y); split; auto; discriminate).
  assert (NLt : forall x y, negb (Rltb x y) = true -> (y <= x)%R).
  { intros x y Q. destruct (Rltb x y) eqn:Q'; [discriminate|]. apply Rnot_lt_le. intros K. apply Lt in K. congruence. }
  assert (NLe : forall x y, negb (Rleb x y) = true -> (y < x)%R).
  { intros x y Q. destruct (Rleb x y) eqn:Q'; [discriminate|]. apply Rnot_le_lt. intros K. apply Le in K. congruence. }
  assert (S : forall b (k : unit -> res (option (arr C))), (b = true -> k tt = Err TypeError) -> bind (guard b TypeError) k = Err TypeError).
  { intros [] k K; cbn; auto. }
  do 17 (apply S; intros ?G). exfalso. apply H. clear H.
  apply Nat.eqb_eq in G0. destruct shapeOut as [|ny [|nx [|]]]; try discriminate. exists ny, nx. split; [reflexivity|].
  cbn [forallb] in G1. rewrite !andb_true_iff, !Z.ltb_lt in G1. rewrite !orb_true_iff, !Z.eqb_eq in G8.
  repeat match goal with K : Rltb _ _ = true |- _ => apply Lt in K | K : negb (Rltb _ _) = true |- _ => apply NLt in K
    | K : negb (Rleb _ _) = true |- _ => apply NLe in K end.
  unfold hlc_checks. repeat split; try assumption; tauto.
Qed.
